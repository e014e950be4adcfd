(** Specification of the training: a trainer that works on a vector of parameters and
    on the opposite of a gradient, without any model *)
From Coq Require Import String List Arith Bool.
From Verif Require Import Num Categoric Func FuncProofs GraphSpec BeliefSpec TrainSpec CRFSpec Trainer.
Import ListNotations.
Open Scope nat_scope.

Section TrainerSpec.
  Context {N : num}.
  (** the number of the parameters, and the gradient of what has to be maximised, as
      seen by the [k]-th question, at given parameters *)
  Variable dim : nat.
  Variable gradient : nat -> list N -> list N.

  (** the parameters at the end of the training that starts from [ws], and [true] when
      the trainer ends without exceptions. The parameters are the last ones set; the
      answer to the [k]-th question is the opposite of the gradient at the current
      ones; a vector of another size is refused and ends the training. *)
  Fixpoint ideal_training (t : trainer) (k : nat) (ws : list N) : list N * bool :=
    match t with
    | TDone => (ws, true)
    | TError => (ws, false)
    | TParameters next => ideal_training (next ws) k ws
    | TSet ws' next => if length ws' =? dim then ideal_training next k ws' else (ws, false)
    | TGradient next => ideal_training (next (map nopp (gradient k ws))) (S k) ws
    end.
End TrainerSpec.

Section Drawn.
  Context {N : num}.
  (** the combinations of the training set used by the [k]-th gradient: all of them when
      the percentage is 1, otherwise the ones drawn, [floor(percentage * size)] many *)
  Definition drawn (floorf : N -> nat) (rand : nat -> nat -> nat) (combs : list (list nat)) (percentage : N) (k : nat) : list (list nat) :=
    if neqb n1 percentage then combs
    else map (fun j => nth (rand k j mod length combs) combs []) (seq 0 (floorf (percentage * nofnat (length combs))%num)).
End Drawn.

Section Gradients.
  Context {N : num}.
  (** the factors, what is in the model, the lists of the factors that share a weight *)
  Variable F : nat -> func N.
  Variable A : spec.
  Variable cs : list (list nat).
  (** the gradient at the weights [ws] of the mean of the log-likelihood of the
      combinations, and the one of the conditional log-likelihood *)
  Definition log_gradient (samples : list (list nat)) (ws : list N) : list N :=
    map (fun c => (mean (sp_vars A) samples (features F c) - expected (weight (with_weights F cs ws) A) A (features F c))%num) cs.
  Definition cond_gradient (samples : list (list nat)) (ws : list N) : list N :=
    map (fun c => (mean (sp_vars A) samples (features F c) - mean_expected (with_weights F cs ws) A samples (features F c))%num) cs.
End Gradients.
