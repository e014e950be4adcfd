(** Specification of the absorption of factors (property C56).

    A list of factors is inserted one at a time; [sp_add] (GraphSpec.v) says
    which insertions are rejected and what they leave. A rejected factor is
    skipped, the next ones are inserted as if it had not been in the list. *)
From Coq Require Import List Arith Bool.
From Verif Require Import Categoric GraphSpec.
Import ListNotations.

Section AbsorbSpec.
  (** the variables of a factor *)
  Variable fv : nat -> list var.

  (** the factors accepted, in order, and the state at the end *)
  Fixpoint sp_accept (A : spec) (l : list nat) : list nat * spec :=
    match l with
    | [] => ([], A)
    | f :: r =>
        let (thrown, A') := sp_add fv A f in
        let (acc, A'') := sp_accept A' r in
        (if thrown then acc else f :: acc, A'')
    end.

  (** {1 Clusters of factors that share their weight} *)

  (** the same variables, in any order *)
  Definition same_vars (l m : list var) : bool :=
    forallb (fun v => existsb (same_instance v) m) l && forallb (fun v => existsb (same_instance v) l) m.

  (** a factor joins the first cluster with a factor on the given variables *)
  Fixpoint sp_join (vars : list var) (k : nat) (cls : list (list nat)) : list (list nat) :=
    match cls with
    | [] => []
    | c :: r => if existsb (fun g => same_vars (fv g) vars) c then (c ++ [k]) :: r else c :: sp_join vars k r
    end.

  (** the object inserted for a factor: itself or a new one, at the first free
      address; the second component is the first free address afterwards *)
  Definition sp_object (copy : bool) (top f : nat) : nat * nat := if copy then (top, S top) else (f, top).

  (** the first factor of a cluster starts a new one, the others join: the ones
      after the first rejected factor are not inserted.
      The state has: contents of the model, clusters, first free address. *)
  Fixpoint sp_shared (copy : bool) (vars : list var) (l : list nat) (st : spec * list (list nat) * nat) : spec * list (list nat) * nat :=
    match l with
    | [] => st
    | f :: r =>
        let '(A, cls, top) := st in
        let (k, top') := sp_object copy top f in
        let (thrown, A') := sp_add fv A k in
        if thrown then (A', cls, top') else sp_shared copy vars r (A', sp_join vars k cls, top')
    end.
  Definition sp_cluster (copy : bool) (st : spec * list (list nat) * nat) (c : list nat) : spec * list (list nat) * nat :=
    match c with
    | [] => st
    | f :: r =>
        let '(A, cls, top) := st in
        let (k, top') := sp_object copy top f in
        let (thrown, A') := sp_add fv A k in
        if thrown then (A', cls, top') else sp_shared copy (fv f) r (A', cls ++ [[k]], top')
    end.
  Definition sp_clusters (copy : bool) (cs : list (list nat)) (st : spec * list (list nat) * nat) : spec * list (list nat) * nat :=
    fold_left (sp_cluster copy) cs st.
End AbsorbSpec.

(** the objects that the absorption of a list inserts: those of the list, or new
    ones ([top] is the first free address) *)
Definition taken (copy : bool) (top : nat) (l : list nat) : list nat :=
  if copy then seq top (length l) else l.

(** two models with the same variables, factors and evidences *)
Definition same_model (A B : spec) : Prop :=
  sp_vars A = sp_vars B /\ sp_facs A = sp_facs B /\ forall k, sp_ev A k = sp_ev B k.
