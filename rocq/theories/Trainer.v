(** Model of the training of the weights.
    Source: /repo/src/src/trainable/ModelTrainer.cpp.
    The trainers are classes of an external library, TrainingTools, that see the model
    through the interface [::train::ParametersAware]: any of them is a strategy for
    calling its three functions. The conversions between vectors of floats and of
    doubles (ModelTrainer.cpp:15-30) are not modelled: the numbers are the same. *)
From Coq Require Import String List Arith Bool.
From Verif Require Import Res Num Categoric Func Special Graph Belief Query Gibbs Train CRF.
Import ListNotations.
Open Scope nat_scope.

Section Trainer.
  Context {N : num}.
  Notation rst := (rst (N:=N)).

  (** what a trainer does: it ends, it throws, or it makes a call and goes on from its
      answer. An exception of a call is not caught by the trainer. *)
  Inductive trainer : Type :=
  | TDone
  | TError
  | TParameters (next : list N -> trainer)
  | TSet (ws : list N) (next : trainer)
  | TGradient (next : list N -> trainer).

  (** [TrainInfo] (ModelTrainer.h:16-27) *)
  Record train_info := mkTrainInfo { info_threads : nat; info_percentage : N }.

  (** [floorf], and the numbers drawn by [rand] in the [k]-th call of [getGradient] *)
  Variable floorf : N -> nat.
  Variable rand : nat -> nat -> nat.

  (** [TrainSetWrapper] (ModelTrainer.cpp:32-49): the constructor makes an iterator on
      the whole set, [get] replaces it when the percentage is not 1. The iterator that
      is kept by the wrapper is never read again when it is replaced. *)
  Definition wrapper_ctor (combs : list (list nat)) : res titer := iter_ctor floorf (rand 0) combs n1.
  Definition wrapper_get (all : titer) (combs : list (list nat)) (percentage : N) (k : nat) : res titer :=
    if neqb n1 percentage then Ok all else iter_ctor floorf (rand k) combs percentage.

  (** the calls made by a trainer on a [ModelWrapper] (ModelTrainer.cpp:52-75);
      [gradient k it] is the function [getWeightsGradient_] of the model, in the [k]-th
      call of [getGradient] *)
  Section Run.
    Variable gradient : nat -> titer -> rst -> out rst (list N).
    Variable get : nat -> res titer.
    Fixpoint run_trainer (t : trainer) (k : nat) (s : rst) : out rst unit :=
      match t with
      | TDone => Ret tt s
      | TError => Thr s
      | TParameters next => do (ws, s) <- lift (get_weights s) s ;; run_trainer (next ws) k s
      | TSet ws next => do (_, s) <- set_weights ws s ;; run_trainer next k s
      | TGradient next =>
          do (it, s) <- lift (get k) s ;;
          do (g, s) <- gradient k it s ;;
          run_trainer (next (map nopp g)) (S k) s
      end.
  End Run.

  (** [train_model] (ModelTrainer.cpp:77-81): the wrapper keeps a [ScopedPoolActivator]
      until the end of the training *)
  Definition train_model (gradient : nat -> titer -> rst -> out rst (list N)) (t : trainer) (combs : list (list nat)) (info : train_info) (s : rst) : out rst unit :=
    do (all, s) <- lift (wrapper_ctor combs) s ;;
    scoped (info_threads info) (run_trainer gradient (wrapper_get all combs (info_percentage info)) t 0) s.

  (** the training of a random field and the one of a conditional random field *)
  Definition train_field (es : nat -> env) := train_model (fun k => rf_gradient (es k)).
  Definition train_crf (es : nat -> nat -> env) (pos : list nat) := train_model (fun k => crf_gradient (es k) pos).
End Trainer.
