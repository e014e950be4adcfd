(** The real numbers, with the exponential function, as numbers of the model *)
From Coq Require Import Reals Lra Bool.
From Verif Require Import Num.
Open Scope R_scope.

Definition R_ltb (x y : R) : bool := if Rlt_dec x y then true else false.
Definition R_eqb (x y : R) : bool := if Req_EM_T x y then true else false.
Definition RNum : num :=
  {| carrier := R; n0 := 0; n1 := 1; nadd := Rplus; nmul := Rmult; nsub := Rminus; nopp := Ropp; ndiv := Rdiv; ninv := Rinv;
     nltb := R_ltb; neqb := R_eqb; nexp := exp; nfltmin := / (2 ^ 126); ndz := fun x => R_eqb x 0 |}.
Lemma R_ltb_spec x y : R_ltb x y = true <-> x < y.
Proof. unfold R_ltb. destruct (Rlt_dec x y); split; auto; discriminate. Qed.
Lemma RNum_ok : num_ok RNum.
Proof.
  constructor; unfold RNum; cbn [carrier n0 n1 nadd nmul nsub nopp ndiv ninv nltb neqb nexp nfltmin ndz].
  - exact RealField.Rfield.
  - intros x y. unfold R_eqb. destruct (Req_EM_T x y); split; auto; discriminate.
  - intros x. destruct (R_ltb x x) eqn:E; auto. apply R_ltb_spec in E. lra.
  - intros x y z. rewrite !R_ltb_spec. lra.
  - intros x y. rewrite !R_ltb_spec. lra.
  - intros x y z. rewrite !R_ltb_spec. lra.
  - intros x y. rewrite !R_ltb_spec. apply Rmult_lt_0_compat.
  - intros x. apply R_ltb_spec. apply exp_pos.
  - apply R_ltb_spec. apply Rinv_0_lt_compat. apply pow_lt. lra.
  - reflexivity.
Qed.
