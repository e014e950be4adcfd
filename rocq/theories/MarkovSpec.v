(** Specification of the distribution of the samples: the probabilities of the
    moves of the Gibbs chain of GibbsSpec.v when the numbers drawn are uniform.
    Nothing here refers to nodes, connections, tasks or batches. *)
From Coq Require Import String List Arith Bool.
From Verif Require Import Num Categoric Func FuncProofs GraphSpec BeliefSpec GibbsSpec.
Import ListNotations.
Open Scope nat_scope.

(** the combinations inside the sizes and equal to the evidences *)
Definition values (A : spec) (v : var) : list nat :=
  filter (fun k => match sp_evidence A v with Some j => k =? j | None => true end) (seq 0 (vsize v)).
Fixpoint combs (A : spec) (vs : list var) : list (list nat) :=
  match vs with
  | [] => [[]]
  | v :: r => flat_map (fun k => map (cons k) (combs A r)) (values A v)
  end.
Definition all_samples (A : spec) : list (list nat) := combs A (sp_vars A).
Definition same (c d : list nat) : bool := if list_eq_dec Nat.eq_dec c d then true else false.

Section Moves.
  Context {N : num}.
  Variable F : nat -> func N.

  (** conditional probability of a combination given the evidences *)
  Definition probability (A : spec) (c : list nat) : N :=
    (weight F A (combine (sp_vars A) c) / mass (weight F A) A (fun _ => true))%num.
  (** conditional probability of a set of combinations *)
  Definition event (A : spec) (P : asg -> bool) : N :=
    (mass (weight F A) A P / mass (weight F A) A (fun _ => true))%num.

  (** probability that the value [k] is drawn for the variable at position [a]
      when the others have their values in [c] *)
  Definition chance (A : spec) (c : list nat) (a : nat) (v : var) (k : nat) : N :=
    if neqb (sumL (level F A c a v) (seq 0 (vsize v))) n0
    then if k =? vsize v - 1 then n1 else n0
    else conditional F A c a v k.
  (** probability that the combination becomes [c'] *)
  Definition redraw_prob (A : spec) (c : list nat) (a : nat) (c' : list nat) : N :=
    match nth_error (sp_vars A) a with
    | Some v => sumL (fun k => if same (replace c a k) c' then chance A c a v k else n0) (seq 0 (vsize v))
    | None => n0
    end.
  (** when the positions of a list are drawn again, one at a time *)
  Fixpoint sweep_prob (A : spec) (l : list nat) (c c' : list nat) : N :=
    match l with
    | [] => if same c c' then n1 else n0
    | a :: r => sumL (fun d => redraw_prob A c a d * sweep_prob A r d c')%num (all_samples A)
    end.
  (** when this is done [n] times *)
  Fixpoint sweeps_prob (A : spec) (l : list nat) (n : nat) (c c' : list nat) : N :=
    match n with
    | 0 => if same c c' then n1 else n0
    | S n => sumL (fun d => sweep_prob A l c d * sweeps_prob A l n d c')%num (all_samples A)
    end.
  (** probability that the combination found after [n] sweeps is in a set *)
  Definition sweeps_event (A : spec) (l : list nat) (n : nat) (c : list nat) (P : asg -> bool) : N :=
    sumL (fun c' => if P (combine (sp_vars A) c') then sweeps_prob A l n c c' else n0) (all_samples A).

  Fixpoint npow (x : N) (n : nat) : N := match n with 0 => n1 | S n => (x * npow x n)%num end.
End Moves.
