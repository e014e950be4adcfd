(** The single precision numbers of IEEE 754 (C++ [float]) as numbers of the
    model: every operation rounds to the nearest (ties to even), overflows to an
    infinity, underflows gradually, and 0/0 is a number (NaN) the program goes on
    with. The operations are those of the standard library of Coq
    ([Floats.SpecFloat]) with 24 bits of significand and exponents up to 2^127.

    None of the laws of [num_ok] can be used on them (addition is not even
    associative, NaN is not equal to itself): only the theorems that do not ask
    for the laws apply.

    [expf] is any function. Not modelled: fused multiply-add, extended
    intermediate precision, flags and traps. *)
From Coq Require Import ZArith Bool.
From Coq Require Import Floats.SpecFloat.
From Verif Require Import Num.
Open Scope Z_scope.

Definition f32_one : spec_float := S754_finite false 8388608 (-23).
Definition FloatNum (expf : spec_float -> spec_float) : num :=
  {| carrier := spec_float; n0 := S754_zero false; n1 := f32_one;
     nadd := SFadd 24 128; nmul := SFmul 24 128; nsub := SFsub 24 128; nopp := SFopp;
     ndiv := SFdiv 24 128; ninv := SFdiv 24 128 f32_one;
     nltb := SFltb; neqb := SFeqb; nexp := expf;
     nfltmin := S754_finite false 8388608 (-149);
     ndz := fun _ => false |}.

(** integers, decimal fractions *)
Definition f32 (m : Z) (d : positive) : spec_float :=
  SFdiv 24 128 (binary_normalize 24 128 m 0 false) (binary_normalize 24 128 (Zpos d) 0 false).

(** the laws of the model do not hold *)
Lemma FloatNum_not_associative expf : exists x y z : FloatNum expf, nadd x (nadd y z) <> nadd (nadd x y) z.
Proof. exists (f32 16777216 1), (f32 1 1), (f32 1 1). vm_compute. discriminate. Qed.
Lemma FloatNum_no_laws expf : ~ num_ok (FloatNum expf).
Proof. intros OK. pose proof (proj2 (ok_eqb _ OK (S754_nan : FloatNum expf) S754_nan) eq_refl) as Q. discriminate Q. Qed.
(** 0/0 *)
Example float_nan expf : ndiv (n0 : FloatNum expf) n0 = S754_nan.
Proof. reflexivity. Qed.
(** the sum of a tenth and two tenths *)
Example float_sum expf : nadd (f32 1 10 : FloatNum expf) (f32 2 10) = S754_finite false 10066330 (-25).
Proof. vm_compute. reflexivity. Qed.
