(** Two models that are the same around a variable (property C60) *)
From Coq Require Import String List Arith Bool.
From Verif Require Import Res Num Categoric Func Graph GraphSpec BeliefSpec.
Import ListNotations.
Open Scope nat_scope.

Section Separate.
  Context {N : num}.

  (** the factor [f] of the model is about the variable [w] *)
  Definition about (F : nat -> func N) (A : spec) (w : var) (f : nat) : Prop := In f (sp_facs A) /\ In w (f_vars (F f)).

  (** The variables linked to [v] by factors between hidden variables have the same
      factors in the two models, and the variables of these factors have the same
      evidences. Nothing is asked of the other variables, factors, weights, evidences. *)
  Record same_around (F : nat -> func N) (A : spec) (F' : nat -> func N) (A' : spec) (v : var) : Prop := {
    sa_hidden : hidden A v /\ hidden A' v;
    sa_facs : forall w f, hidden_linked F A v w -> (about F A w f <-> about F' A' w f);
    sa_same : forall w f, hidden_linked F A v w -> about F A w f -> F' f = F f;
    sa_ev : forall w f u, hidden_linked F A v w -> about F A w f -> In u (f_vars (F f)) -> sp_evidence A' u = sp_evidence A u
  }.

  (** an event about the variables linked to [v] *)
  Definition event_around (F : nat -> func N) (A : spec) (v : var) (P : asg -> bool) : Prop :=
    forall x y, (forall u, hidden_linked F A v u -> val x u = val y u) -> P x = P y.
  (** the probability of an event *)
  Definition probability (F : nat -> func N) (A : spec) (P : asg -> bool) : N := (mass (weight F A) A P / mass (weight F A) A (fun _ => true))%num.
End Separate.
