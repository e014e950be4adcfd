(** Specification of the observable state of a model and of its mutating
    methods, independent of the model of the code (Graph.v): no nodes, no
    connections, no clusters, no messages. *)
From Coq Require Import String List Arith Bool.
From Verif Require Import Categoric.
Import ListNotations.
Open Scope nat_scope.

(** what a user can ask: the variables in order of insertion, the evidences,
    the factors in order of insertion *)
Record spec := mkSpec {
  sp_vars : list var;
  sp_ev : (string * nat) -> option nat;
  sp_facs : list nat
}.
Definition spec_empty : spec := mkSpec [] (fun _ => None) [].

(** the calls of the API *)
Inductive gop :=
| OAdd (f : option nat)                       (** insertion of a factor; [None]: null pointer *)
| OSet (v : var) (k : nat)                    (** setEvidence *)
| OSetName (n : string) (k : nat)
| ORemove (v : var)                           (** removeEvidence *)
| ORemoveName (n : string)
| ORemoveSet (vs : list var)                  (** removeEvidences *)
| ORemoveNames (ns : list string)
| ORemoveAll                                  (** removeAllEvidences *)
| OMarginal (v : var) (threads : nat)
| OMarginalName (n : string) (threads : nat)
| OMap (v : var) (threads : nat)
| OMapName (n : string) (threads : nat)
| OHiddenMap (threads : nat)
| OJoint (vs : group) (threads : nat)
| OJointNames (ns : list string) (threads : nat)
| OPropagate (sum : bool) (threads : nat)
| OIters (n : nat).                           (** setPropagationContext *)

Definition same_key (x y : var) : bool := String.eqb (vname x) (vname y) && (vsize x =? vsize y).
Definition same_instance (x y : var) : bool := same_key x y && (vid x =? vid y).

Definition sp_known (A : spec) (v : var) : bool := existsb (same_key v) (sp_vars A).
(** a variable of the model has the same name and size but is another object *)
Definition sp_conflict (A : spec) (v : var) : bool :=
  existsb (fun w => same_key v w && negb (same_instance v w)) (sp_vars A).
Definition sp_insert (A : spec) (v : var) : spec :=
  if sp_known A v then A else mkSpec (sp_vars A ++ [v]) (sp_ev A) (sp_facs A).
Definition sp_push (A : spec) (f : nat) : spec := mkSpec (sp_vars A) (sp_ev A) (sp_facs A ++ [f]).
Definition upd_ev (m : (string * nat) -> option nat) (k : string * nat) (x : option nat) : (string * nat) -> option nat :=
  fun j => if String.eqb (fst j) (fst k) && (snd j =? snd k) then x else m j.
Definition sp_set (A : spec) (v : var) (x : option nat) : spec :=
  mkSpec (sp_vars A) (upd_ev (sp_ev A) (vname v, vsize v) x) (sp_facs A).
Definition sp_observed (A : spec) (v : var) : bool :=
  sp_known A v && match sp_ev A (vname v, vsize v) with Some _ => true | None => false end.
Definition sp_named (A : spec) (n : string) : option var := find (fun v => String.eqb (vname v) n) (sp_vars A).

Section Step.
  (** the variables of a factor *)
  Variable fv : nat -> list var.

  (** the two variables are already connected by a factor *)
  Definition sp_joined (A : spec) (x y : var) : bool :=
    existsb (fun g => match fv g with
                      | [a; b] => (same_instance a x && same_instance b y) || (same_instance a y && same_instance b x)
                      | _ => false
                      end) (sp_facs A).

  (** result of a call: does it throw, and the new state *)
  Definition sp_add (A : spec) (f : nat) : bool * spec :=
    if existsb (Nat.eqb f) (sp_facs A) then (true, A)
    else match fv f with
         | [v] => if sp_conflict A v then (true, A) else (false, sp_push (sp_insert A v) f)
         | [x; y] =>
             if sp_conflict A x then (true, A)
             else if sp_conflict A y then (true, sp_insert A x)   (* the first variable has been inserted *)
             else if sp_joined A x y then (true, A)
             else (false, sp_push (sp_insert (sp_insert A x) y) f)
         | _ => (true, A)
         end.

  Definition sp_set_ev (A : spec) (v : var) (k : nat) : bool * spec :=
    if (k <? vsize v) && sp_known A v then (false, sp_set A v (Some k)) else (true, A).
  Definition sp_remove (A : spec) (v : var) : bool * spec :=
    if sp_observed A v then (false, sp_set A v None) else (true, A).
  Fixpoint sp_removes (A : spec) (vs : list var) : bool * spec :=
    match vs with
    | [] => (false, A)
    | v :: r => if sp_observed A v then sp_removes (sp_set A v None) r else (true, A)
    end.
  Fixpoint sp_names (A : spec) (ns : list string) : option (list var) :=
    match ns with
    | [] => Some []
    | n :: r => match sp_named A n, sp_names A r with Some v, Some l => Some (v :: l) | _, _ => None end
    end.
  (** a set of variables: repetitions are ignored *)
  Definition sp_dedup (vs : list var) : list var :=
    fold_left (fun acc v => if existsb (same_key v) acc then acc else acc ++ [v]) vs [].

  (** [None]: a query, whose outcome is the object of other properties *)
  Definition sp_step (A : spec) (op : gop) : option (bool * spec) :=
    match op with
    | OAdd None => Some (true, A)
    | OAdd (Some f) => Some (sp_add A f)
    | OSet v k => Some (sp_set_ev A v k)
    | OSetName n k => Some (match sp_named A n with Some v => sp_set_ev A v k | None => (true, A) end)
    | ORemove v => Some (sp_remove A v)
    | ORemoveName n => Some (match sp_named A n with Some v => sp_remove A v | None => (true, A) end)
    | ORemoveSet vs => Some (sp_removes A vs)
    | ORemoveNames ns => Some (match sp_names A ns with Some vs => sp_removes A (sp_dedup vs) | None => (true, A) end)
    | ORemoveAll => Some (false, mkSpec (sp_vars A) (fun _ => None) (sp_facs A))
    | OIters _ => Some (false, A)
    | _ => None
    end.

  (** the state after a sequence of calls: queries leave it as it is *)
  Definition sp_next (A : spec) (op : gop) : spec :=
    match sp_step A op with Some (_, A') => A' | None => A end.
  Definition sp_run (ops : list gop) : spec := fold_left sp_next ops spec_empty.

  (** {1 Conditions on the histories} *)

  (** [removeEvidences] is called only with observed variables, once each *)
  Definition no_failed_removal (A : spec) (op : gop) : Prop :=
    match op with
    | ORemoveSet vs => fst (sp_removes A vs) = false
    | ORemoveNames ns => match sp_names A ns with Some vs => fst (sp_removes A (sp_dedup vs)) = false | None => True end
    | _ => True
    end.

  (** no variable that stays observed is connected to a variable whose evidence
      is removed *)
  Definition separated (A : spec) (vs : list var) : Prop :=
    forall g x y, In g (sp_facs A) -> fv g = [x; y] \/ fv g = [y; x] ->
      existsb (same_key x) vs = true -> sp_observed A y = true -> existsb (same_key y) vs = true.
  Definition separated_removal (A : spec) (op : gop) : Prop :=
    match op with
    | ORemove v => separated A [v]
    | ORemoveName n => match sp_named A n with Some v => separated A [v] | None => True end
    | ORemoveSet vs => separated A vs
    | ORemoveNames ns => match sp_names A ns with Some vs => separated A vs | None => True end
    | _ => True
    end.
End Step.
