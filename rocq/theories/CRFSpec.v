(** Specification of the conditional random fields: the model given the values of a
    combination, the mean of the conditional log-likelihood *)
From Coq Require Import String List Arith Bool Reals.
From Verif Require Import Num RealNum Categoric Func FuncProofs GraphSpec BeliefSpec TrainSpec.
Import ListNotations.
Open Scope nat_scope.

(** the model, when the evidences of its observed variables are their values in a
    combination of the values of all the variables *)
Definition given (A : spec) (c : list nat) : spec :=
  mkSpec (sp_vars A)
         (fun k => match sp_ev A k with
                   | None => None
                   | Some _ => option_map snd (find (fun p => String.eqb (vname (fst p)) (fst k) && (vsize (fst p) =? snd k)) (combine (sp_vars A) c))
                   end)
         (sp_facs A).

Section CRFSpec.
  Context {N : num}.
  Variable F : nat -> func N.
  (** mean, on the combinations of a training set, of the mean of a function under the
      distribution of the model given the values of the combination *)
  Definition mean_expected (A : spec) (samples : list (list nat)) (G : asg -> N) : N :=
    (sumL (fun c => expected (weight F (given A c)) (given A c) G) samples / nofnat (length samples))%num.
End CRFSpec.

(** mean of the logarithms of the conditional probabilities of the combinations of a
    training set, given the values of the observed variables *)
Definition cond_loglik (F : nat -> func RNum) (A : spec) (samples : list (list nat)) : R :=
  (sumL (N:=RNum) (fun c => ln (weight F A (assigned (sp_vars A) c) / mass (weight F A) (given A c) (fun _ => true))) samples / nofnat (N:=RNum) (length samples))%R.
