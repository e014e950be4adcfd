(** Specification of the probabilistic queries: assignments of all the
    variables, product of the factors, marginals, most probable assignments,
    cycles of the hidden variables. Nothing here refers to nodes, connections,
    clusters or messages. *)
From Coq Require Import String List Arith Bool Relations.
From Verif Require Import Num Categoric Func FuncProofs GraphSpec.
Import ListNotations.
Open Scope nat_scope.

(** an assignment gives a value to every variable *)
Definition asg := list (var * nat).
Fixpoint all_asg (vs : list var) : list asg :=
  match vs with
  | [] => [[]]
  | v :: r => flat_map (fun k => map (cons (v, k)) (all_asg r)) (seq 0 (vsize v))
  end.
Fixpoint val (x : asg) (v : var) : nat :=
  match x with
  | [] => 0
  | (w, k) :: r => if same_instance v w then k else val r v
  end.

Definition takes (v : var) (k : nat) (x : asg) : bool := val x v =? k.
Definition sp_evidence (A : spec) (v : var) : option nat := sp_ev A (vname v, vsize v).
(** the assignment gives their observed values to the observed variables *)
Definition agrees (A : spec) (x : asg) : bool :=
  forallb (fun v => match sp_evidence A v with Some k => val x v =? k | None => true end) (sp_vars A).
Definition hidden (A : spec) (v : var) : Prop := In v (sp_vars A) /\ sp_evidence A v = None.

Section Weights.
  Context {N : num}.
  (** the factors *)
  Variable F : nat -> func N.

  (** the product of all the factors of the model *)
  Definition weight (A : spec) (x : asg) : N :=
    prodL (fun f => fval (F f) (map (val x) (f_vars (F f)))) (sp_facs A).

  (** the same product, with the factors between two hidden variables read with
      the two values exchanged *)
  Definition is_obs (A : spec) (v : var) : bool := match sp_evidence A v with Some _ => true | None => false end.
  Definition swapped (A : spec) (f : nat) (x : asg) : N :=
    match f_vars (F f) with
    | [v; w] => if is_obs A v || is_obs A w then fval (F f) [val x v; val x w] else fval (F f) [val x w; val x v]
    | vs => fval (F f) (map (val x) vs)
    end.
  Definition weight_swapped (A : spec) (x : asg) : N := prodL (fun f => swapped A f x) (sp_facs A).

  (** sums and maxima over the assignments that agree with the evidences *)
  Section Mass.
    Variable W : asg -> N.
    Definition mass (A : spec) (P : asg -> bool) : N :=
      sumL (fun x => if agrees A x && P x then W x else n0) (all_asg (sp_vars A)).
    (** conditional probability that [v] takes the value [k] *)
    Definition marginal (A : spec) (v : var) (k : nat) : N :=
      (mass A (takes v k) / mass A (fun _ => true))%num.
    Definition possible (A : spec) (x : asg) : Prop := In x (all_asg (sp_vars A)) /\ agrees A x = true.
    Definition most_probable (A : spec) (x : asg) : Prop :=
      possible A x /\ forall y, possible A y -> (W y <= W x)%num.
    Definition positive (A : spec) : Prop := exists x, possible A x /\ (n0 < W x)%num.
  End Mass.

  Definition fv (f : nat) : list var := f_vars (F f).
  Definition joins (A : spec) (f : nat) (v w : var) : Prop := In f (sp_facs A) /\ (fv f = [v; w] \/ fv f = [w; v]).
  (** edges between hidden variables *)
  Definition hidden_edge (A : spec) (v w : var) : Prop := hidden A v /\ hidden A w /\ exists f, joins A f v w.
  Definition hidden_linked (A : spec) : var -> var -> Prop := clos_refl_trans var (hidden_edge A).

  (** the factors between hidden variables join variables of equal sizes *)
  Definition balanced (A : spec) : Prop := forall v w, hidden_edge A v w -> vsize v = vsize w.
  (** the factors between hidden variables are symmetric *)
  Definition symmetric (A : spec) : Prop := forall f v w, joins A f v w -> hidden A v -> hidden A w ->
    vsize v = vsize w /\ forall i j, i < vsize v -> j < vsize v -> fval (F f) [i; j] = fval (F f) [j; i].
  (** no factor between hidden variables has values below the smallest
      positive normalised float *)
  Definition above_floor (A : spec) : Prop := forall f v w, In f (sp_facs A) -> fv f = [v; w] -> hidden A v -> hidden A w ->
    forall i j, i < vsize v -> j < vsize w -> (nfltmin <= fval (F f) [i; j])%num.
End Weights.

(** at least three distinct elements, each related to the next, the last to the first *)
Definition ring {T} (E : T -> T -> Prop) (c : list T) : Prop :=
  3 <= length c /\ NoDup c /\
  forall i x y, nth_error c i = Some x -> nth_error c (if S i =? length c then 0 else S i) = Some y -> E x y.

Section Guards.
  Context {N : num}.
  Variable F : nat -> func N.

  (** the hidden variables linked to [v] form a tree *)
  Definition tree_around (A : spec) (v : var) : Prop :=
    ~ exists c, ring (hidden_edge F A) c /\ forall w, In w c -> hidden_linked F A v w.

  (** the number of threads of a query *)
  Definition query_threads (op : gop) : option nat :=
    match op with
    | OMarginal _ n | OMarginalName _ n | OMap _ n | OMapName _ n | OHiddenMap n | OJoint _ n | OJointNames _ n | OPropagate _ n => Some n
    | _ => None
    end.
  (** queries are done when an assignment with a positive weight agrees with the
      evidences, and with at least one thread *)
  Definition sound_query (A : spec) (op : gop) : Prop :=
    match query_threads op with
    | Some n => 1 <= n /\ balanced F A /\ positive (weight_swapped F A) A
    | None => True
    end.
  Definition proper_use (A : spec) (op : gop) : Prop :=
    no_failed_removal A op /\ separated_removal (fv F) A op /\ sound_query A op.
End Guards.
