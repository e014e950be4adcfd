(** Specification of the training: features, expectations, likelihood. Nothing
    here refers to tuners, nodes or messages. *)
From Coq Require Import String List Arith Bool.
From Verif Require Import Num Categoric Func FuncProofs GraphSpec BeliefSpec.
Import ListNotations.
Open Scope nat_scope.

Section TrainSpec.
  Context {N : num}.
  (** the factors *)
  Variable F : nat -> func N.

  (** the value stored by a factor for an assignment, before the exponential *)
  Definition feature (f : nat) (x : asg) : N := fimg (F f) (map (val x) (f_vars (F f))).
  (** sum on the factors that share a weight *)
  Definition features (c : list nat) (x : asg) : N := sumL (fun f => feature f x) c.

  (** the assignment of a combination of the values of all the variables *)
  Definition assigned (vs : list var) (c : list nat) : asg := combine vs c.
  (** mean of a function on the combinations of a training set *)
  Definition mean (vs : list var) (samples : list (list nat)) (G : asg -> N) : N :=
    (sumL (fun c => G (assigned vs c)) samples / nofnat (length samples))%num.
  (** mean of a function under the distribution with density proportional to [W] *)
  Definition expected (W : asg -> N) (A : spec) (G : asg -> N) : N :=
    (sumL (fun x => if agrees A x then (W x * G x)%num else n0) (all_asg (sp_vars A)) / mass W A (fun _ => true))%num.

  (** the factors, when the ones of the k-th list of [cs] have the k-th weight *)
  Definition with_weight (f : func N) (w : N) : func N := mkFunc (f_group f) (f_info f) (f_data f) (Some w).
  Fixpoint with_weights (cs : list (list nat)) (ws : list N) (f : nat) : func N :=
    match cs, ws with
    | c :: cs, w :: ws => if existsb (Nat.eqb f) c then with_weight (F f) w else with_weights cs ws f
    | _, _ => F f
    end.
End TrainSpec.
(** the model without evidences *)
Definition unobserved_spec (A : spec) : spec := mkSpec (sp_vars A) (fun _ => None) (sp_facs A).
