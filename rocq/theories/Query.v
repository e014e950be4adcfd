(** Model of the queries.
    Sources: /repo/src/src/structure/QueryManager.cpp,
    /repo/src/header/EasyFactorGraph/structure/QueryManager.h. *)
From Coq Require Import String List Arith Bool Permutation.
From Verif Require Import Res Num Categoric Func Special Graph Belief.
Import ListNotations.
Open Scope nat_scope.

Section Query.
  Context {N : num}.
  Notation gst := (gst (N:=N)).
  Variable H : nat -> func N.

  (** [checkPropagation_] (QueryManager.h:97-103) *)
  Definition check_propagation (e : env) (k : kind) (threads : nat) (s : gst) : out gst unit :=
    if would_need s k then scoped_pool threads (propagate H e k) s else Ret tt s.

  (** [gather_incoming_messages] (QueryManager.cpp:16-26). [Cache::get] throws
      when empty; the list has at least one element. *)
  Definition incoming (e : env) (s : gst) (a : nat) : res (func N) :=
    match nd_merged (g_node s a) with
    | None => Throw
    | Some m =>
        merged_unaries (Some m ::
          map (fun b => match act s a b with Some c => c_msg c | None => None end)
              (e_ord e a (keys (gsize s) (nd_act (g_node s a)))))
    end.

  (** [getMarginalDistribution(location)] (QueryManager.cpp:39-53), [zeros] (28-35) *)
  Definition marginal_at (e : env) (s : gst) (a : nat) (l : loc) : res (list N) :=
    match l with
    | LCl _ => let* m := incoming e s a in get_probabilities m
    | LEv value =>
        let* v := node_var s a in
        vset (repeat n0 (vsize v)) value n1
    end.

  (** [marginalQuery_] (QueryManager.h:105-113) *)
  Definition marginal_query (e : env) (k : kind) (v : var) (threads : nat) (s : gst) : out gst (list N) :=
    do (_, s) <- check_propagation e k threads s ;;
    match locate s v with
    | None => Thr s
    | Some (a, l) => lift (marginal_at e s a l) s
    end.

  (** [getMarginalDistribution] (QueryManager.h, QueryManager.cpp:59-62) *)
  Definition get_marginal (e : env) (v : var) (threads : nat) (s : gst) : out gst (list N) :=
    marginal_query e SUM v threads s.
  Definition get_marginal_name (e : env) (name : string) (threads : nat) (s : gst) : out gst (list N) :=
    do (v, s) <- lift (find_variable s name) s ;; get_marginal e v threads s.

  (** [find_max] (QueryManager.cpp:65-75) *)
  Fixpoint find_max_loop (l : list N) (k : nat) (m : N) (r : nat) : nat :=
    match l with
    | [] => r
    | x :: l' => if nltb m x then find_max_loop l' (S k) x k else find_max_loop l' (S k) m r
    end.
  Definition find_max (l : list N) : res nat :=
    match l with
    | [] => UB
    | x :: r => Ok (find_max_loop r 1 x 0)
    end.

  (** [getMAP] (QueryManager.cpp:78-86) *)
  Definition get_map (e : env) (v : var) (threads : nat) (s : gst) : out gst nat :=
    do (vals, s) <- marginal_query e MAP v threads s ;; lift (find_max vals) s.
  Definition get_map_name (e : env) (name : string) (threads : nat) (s : gst) : out gst nat :=
    do (v, s) <- lift (find_variable s name) s ;; get_map e v threads s.

  (** [getHiddenSetMAP] (QueryManager.cpp:88-99): the values, in the order of
      [getHiddenVariables] *)
  Definition get_hidden_map (e : env) (threads : nat) (s : gst) : out gst (list nat) :=
    do (_, s) <- check_propagation e MAP threads s ;;
    lift (rmap (fun v =>
                  match find_node s v with
                  | None => UB
                  | Some a =>
                      let* m := incoming e s a in
                      let* p := get_probabilities m in
                      find_max p
                  end) (hidden_variables e s)) s.

  (** {1 Joint marginals} *)

  (** the pointers put in [contributions] (QueryManager.cpp:116-139) *)
  Inductive contrib := CMerged (a : nat) | CMsg (a b : nat) | CFac (f : nat) | CInd (k : nat).
  Definition contrib_eqb (x y : contrib) : bool :=
    match x, y with
    | CMerged a, CMerged b => a =? b
    | CMsg a b, CMsg c d => (a =? c) && (b =? d)
    | CFac f, CFac g => f =? g
    | CInd i, CInd j => i =? j
    | _, _ => false
    end.
  Definition cadd (l : list contrib) (c : contrib) : list contrib :=
    if existsb (contrib_eqb c) l then l else l ++ [c].

  (** the contributions of a location and the number of indicators created *)
  Definition contrib_step (e : env) (s : gst) (inside : list nat) (st : list contrib * list (nat * nat)) (al : nat * loc)
    : res (list contrib * list (nat * nat)) :=
    let (cs, inds) := st in
    let (a, l) := al in
    match l with
    | LCl _ =>
        match nd_merged (g_node s a) with
        | None => Throw
        | Some _ =>
            let* more :=
              rmap (fun b => match act s a b with
                             | None => UB
                             | Some c => Ok (if mem b inside then CFac (c_fac c) else CMsg a b)
                             end)
                   (e_ord e a (keys (gsize s) (nd_act (g_node s a)))) in
            Ok (fold_left cadd (CMerged a :: more) cs, inds)
        end
    | LEv value => Ok (cadd cs (CInd (length inds)), inds ++ [(a, value)])
    end.

  (** the factor behind a pointer. The indicators are the elements of a vector
      that grows: when there are at least two, the pointer to the first dangles. *)
  Definition contrib_factor (s : gst) (inds : list (nat * nat)) (c : contrib) : res (func N) :=
    match c with
    | CMerged a => match nd_merged (g_node s a) with Some m => Ok m | None => Throw end
    | CMsg a b => match act s a b with Some c => match c_msg c with Some m => Ok m | None => UB end | None => UB end
    | CFac f => Ok (H f)
    | CInd k =>
        let* (a, value) := vget inds k in
        if k + 1 <? length inds then UB
        else let* v := node_var s a in indicator v value
    end.

  (** [getJointMarginalDistribution] (QueryManager.cpp:101-144) *)
  Definition get_joint (e : env) (subgroup : group) (threads : nat) (s : gst) : out gst (func N) :=
    do (_, s) <- check_propagation e SUM threads s ;;
    do (locs, s) <- lift (rmap (fun v => match locate s v with Some l => Ok l | None => Throw end) (g_soup subgroup)) s ;;
    lift (let inside := map fst locs in
          let* (cs, inds) := rfold (contrib_step e s inside) locs ([], []) in
          let* fs := rmap (contrib_factor s inds) (permute (e_ord e (gsize s)) cs) in
          let* f := factor_merge (permute (e_ord e (gsize s))) fs in
          clone_permuted f subgroup) s.
  Definition get_joint_names (e : env) (names : list string) (threads : nat) (s : gst) : out gst (func N) :=
    do (vs, s) <- lift (rmap (find_variable s) names) s ;;
    do (g, s) <- lift (group_ctor vs) s ;;
    get_joint e g threads s.
End Query.
