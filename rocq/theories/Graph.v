(** Model of the graph of a model: nodes, connections, clusters of hidden
    nodes, evidences, insertion of factors.
    Sources: /repo/src/src/structure/Types.cpp, EvidenceManager.cpp,
    /repo/src/src/structure/bases/StateAware.cpp, FactorsAware.cpp. *)
From Coq Require Import String List Arith Bool Permutation.
From Verif Require Import Res Num Categoric Func Special.
Import ListNotations.
Open Scope nat_scope.

(** {1 Outcomes of the methods}

    The methods mutate the model, also when they throw: the state is part of a
    normal return and of a throw. *)
Inductive out (S A : Type) : Type :=
| Ret (a : A) (s : S)
| Thr (s : S)
| Undef
| NotNum
| NoStop.
Arguments Ret {S A} _ _.
Arguments Thr {S A} _.
Arguments Undef {S A}.
Arguments NotNum {S A}.
Arguments NoStop {S A}.

Definition obind {S A B} (m : out S A) (f : A -> S -> out S B) : out S B :=
  match m with
  | Ret a s => f a s
  | Thr s => Thr s
  | Undef => Undef
  | NotNum => NotNum
  | NoStop => NoStop
  end.
Notation "'do' ( x , s ) <- c1 ;; c2" := (obind c1 (fun x s => c2))
  (at level 61, x pattern, s name, c1 at next level, right associativity).

(** a computation that does not touch the state *)
Definition lift {S A} (r : res A) (s : S) : out S A :=
  match r with
  | Ok a => Ret a s
  | Throw => Thr s
  | UB => Undef
  | Nan => NotNum
  | Loop => NoStop
  end.

(** a loop whose body mutates the state *)
Fixpoint ofold {S A} (f : A -> S -> out S unit) (l : list A) (s : S) : out S unit :=
  match l with
  | [] => Ret tt s
  | x :: r => do (_, s) <- f x s ;; ofold f r s
  end.

(** {1 What the code leaves unspecified}

    [e_ord] : the order in which the elements of an [unordered_set] or
    [unordered_map] are visited; the first argument identifies the container.
    [e_sched] : the order in which the tasks of a batch are executed by a pool
    with more than one thread, see Pool.v for the interleavings. Each call of
    the API has its own environment. *)
Record env := mkEnv {
  e_ord : nat -> list nat -> list nat;
  e_sched : nat -> list nat -> list nat
}.
Definition env_ok (e : env) : Prop :=
  (forall t l, Permutation (e_ord e t l) l) /\ (forall t l, Permutation (e_sched e t l) l).

Definition env_id : env := mkEnv (fun _ l => l) (fun _ l => l).
Definition env_rev : env := mkEnv (fun _ l => rev l) (fun _ l => rev l).

(** {1 State} *)

Definition fupd {A} (m : nat -> A) (k : nat) (a : A) : nat -> A :=
  fun j => if j =? k then a else m j.

Definition is_some {A} (o : option A) : bool := match o with Some _ => true | None => false end.

(** the keys of a map whose keys are smaller than [n] *)
Definition keys {A} (n : nat) (m : nat -> option A) : list nat :=
  filter (fun k => is_some (m k)) (seq 0 n).

Definition mem (k : nat) (l : list nat) : bool := existsb (Nat.eqb k) l.

Fixpoint find_pos {A} (p : A -> bool) (l : list A) : option nat :=
  match l with
  | [] => None
  | x :: r => if p x then Some 0 else option_map S (find_pos p r)
  end.

Section Graph.
  Context {N : num}.

  (** [Node::Connection] (Types.h:25-30). A factor is identified by the address
      [c_fac] of the object; [c_uid] identifies the entry of the map that holds
      this connection: an entry erased and created again is another object. *)
  Record conn := mkConn { c_fac : nat; c_msg : option (func N); c_uid : nat }.

  (** [Node] (Types.h:22-41). Nodes are identified by the position of their
      variable in [GraphState::variables]: nodes and variables are created
      together and never destroyed. The maps from [Node*] to [Connection] are
      functions of the identity of the node. *)
  Record node := mkNode {
    nd_act : nat -> option conn;
    nd_dis : nat -> option conn;
    nd_un : list nat;
    nd_merged : option (func N)
  }.

  (** [HiddenCluster::TopologyInfo] (Types.h:64-75). The pointer [connection] is
      the entry [t_snd] of the active connections of [t_rcv]; a dependency
      [(k, u)] points to the entry [k] of the active connections of the sender.
      [t_uid] and [u] identify the entry pointed. *)
  Record topo := mkTopo { t_snd : nat; t_rcv : nat; t_uid : nat; t_deps : list (nat * nat) }.

  (** [HiddenCluster] (Types.h:61-79) *)
  Record cluster := mkCl { cl_nodes : list nat; cl_topo : option (list topo) }.

  (** [PropagationResult] (Types.h:99-111) *)
  Record presult := mkPR { pr_kind : kind; pr_completed : bool; pr_structs : list (bool * nat) }.

  (** [GraphState] (StateAware.h), [factorsAll] (FactorsAware.h:35),
      [lastPropagation] (BeliefAware.h), [pool] (PoolAware.h:76).
      Simplifications: the evidences, a map keyed by the value of the variable,
      are keyed by the node having that variable; the map [nodes], keyed by the
      value of the variable, is the search of that value in [g_vars]. *)
  Record gst := mkG {
    g_vars : list var;
    g_node : nat -> node;
    g_next : nat;                 (** next address of an entry of a map *)
    g_cl : list cluster;
    g_ev : nat -> option nat;
    g_all : list nat;
    g_last : option presult;
    g_iters : nat;                (** [max_iterations_loopy_propagation] *)
    g_pool : option nat           (** size of the pool; [None]: disengaged optional *)
  }.

  Definition empty_node : node := mkNode (fun _ => None) (fun _ => None) [] None.

  (** a model after its default constructor: BeliefAware.h ([context]),
      PoolAware.cpp:70-74 *)
  Definition g_empty : gst :=
    mkG [] (fun _ => empty_node) 0 [] (fun _ => None) [] None (10 * (10 * 10)) (Some 1).

  Definition gsize (s : gst) : nat := length (g_vars s).

  Definition set_node (s : gst) (k : nat) (nd : node) : gst :=
    mkG (g_vars s) (fupd (g_node s) k nd) (g_next s) (g_cl s) (g_ev s) (g_all s) (g_last s) (g_iters s) (g_pool s).
  Definition set_next (s : gst) (n : nat) : gst :=
    mkG (g_vars s) (g_node s) n (g_cl s) (g_ev s) (g_all s) (g_last s) (g_iters s) (g_pool s).
  Definition set_cl (s : gst) (c : list cluster) : gst :=
    mkG (g_vars s) (g_node s) (g_next s) c (g_ev s) (g_all s) (g_last s) (g_iters s) (g_pool s).
  Definition set_ev (s : gst) (m : nat -> option nat) : gst :=
    mkG (g_vars s) (g_node s) (g_next s) (g_cl s) m (g_all s) (g_last s) (g_iters s) (g_pool s).
  Definition set_all (s : gst) (l : list nat) : gst :=
    mkG (g_vars s) (g_node s) (g_next s) (g_cl s) (g_ev s) l (g_last s) (g_iters s) (g_pool s).
  Definition set_last (s : gst) (l : option presult) : gst :=
    mkG (g_vars s) (g_node s) (g_next s) (g_cl s) (g_ev s) (g_all s) l (g_iters s) (g_pool s).
  Definition set_pool (s : gst) (p : option nat) : gst :=
    mkG (g_vars s) (g_node s) (g_next s) (g_cl s) (g_ev s) (g_all s) (g_last s) (g_iters s) p.

  (** [setPropagationContext] (BeliefAware.h) *)
  Definition set_iters (s : gst) (k : nat) : gst :=
    mkG (g_vars s) (g_node s) (g_next s) (g_cl s) (g_ev s) (g_all s) (g_last s) k (g_pool s).

  (** [resetBelief] (BeliefAware.h) *)
  Definition reset_belief (s : gst) : gst := set_last s None.

  Definition with_act (nd : node) m := mkNode m (nd_dis nd) (nd_un nd) (nd_merged nd).
  Definition with_dis (nd : node) m := mkNode (nd_act nd) m (nd_un nd) (nd_merged nd).
  Definition with_un (nd : node) l := mkNode (nd_act nd) (nd_dis nd) l (nd_merged nd).
  Definition with_merged (nd : node) c := mkNode (nd_act nd) (nd_dis nd) (nd_un nd) c.

  Definition act (s : gst) (a b : nat) : option conn := nd_act (g_node s a) b.
  Definition dis (s : gst) (a b : nat) : option conn := nd_dis (g_node s a) b.

  (** [active_connections.erase], [disabled_connections.erase] *)
  Definition erase_act (s : gst) (a b : nat) : gst :=
    set_node s a (with_act (g_node s a) (fupd (nd_act (g_node s a)) b None)).
  Definition erase_dis (s : gst) (a b : nat) : gst :=
    set_node s a (with_dis (g_node s a) (fupd (nd_dis (g_node s a)) b None)).

  (** [reset(a.active_connections[&b], factor)], [reset(a.disabled_connections[&b], factor)]
      (Types.cpp:38-43, 50-51, 66-67): the entry is created when missing, then
      its message is dropped and its factor assigned *)
  Definition reset_conn (old : option conn) (fresh fac : nat) : conn :=
    mkConn fac None (match old with Some c => c_uid c | None => fresh end).
  Definition put_act (s : gst) (a b fac : nat) : gst :=
    set_next (set_node s a (with_act (g_node s a)
      (fupd (nd_act (g_node s a)) b (Some (reset_conn (act s a b) (g_next s) fac))))) (S (g_next s)).
  Definition put_dis (s : gst) (a b fac : nat) : gst :=
    set_next (set_node s a (with_dis (g_node s a)
      (fupd (nd_dis (g_node s a)) b (Some (reset_conn (dis s a b) (g_next s) fac))))) (S (g_next s)).

  (** [Node::activate] (Types.cpp:46-52) *)
  Definition activate (s : gst) (a b fac : nat) : gst :=
    put_act (put_act (erase_dis (erase_dis s a b) b a) a b fac) b a fac.

  (** [Node::disable] with a factor (Types.cpp:64-67) *)
  Definition disable (s : gst) (a b fac : nat) : gst :=
    put_dis (put_dis (erase_act (erase_act s a b) b a) a b fac) b a fac.

  (** [Node::disable] without a factor (Types.cpp:55-67) *)
  Definition disable_known (s : gst) (a b : nat) : out gst unit :=
    match act s a b with
    | None => Thr s
    | Some c => Ret tt (disable s a b (c_fac c))
    end.

  (** [merged_unaries.reset()]. [Cache::reset] (Cache.h) forms a reference from
      the null pointer it returns; nobody reads it and the model ignores it. *)
  Definition drop_merged (s : gst) (a : nat) : gst :=
    set_node s a (with_merged (g_node s a) None).
  Definition set_merged (s : gst) (a : nat) (f : func N) : gst :=
    set_node s a (with_merged (g_node s a) (Some f)).

  Definition with_msg (c : conn) (m : option (func N)) : conn := mkConn (c_fac c) m (c_uid c).

  (** assignment of the message of an entry; dereference of [end()] is undefined *)
  Definition set_dis_msg (s : gst) (a b : nat) (m : func N) : out gst unit :=
    match dis s a b with
    | None => Undef
    | Some c => Ret tt (set_node s a (with_dis (g_node s a)
                  (fupd (nd_dis (g_node s a)) b (Some (with_msg c (Some m))))))
    end.
  Definition set_act_msg (s : gst) (a b : nat) (m : option (func N)) : out gst unit :=
    match act s a b with
    | None => Undef
    | Some c => Ret tt (set_node s a (with_act (g_node s a)
                  (fupd (nd_act (g_node s a)) b (Some (with_msg c m)))))
    end.

  (** {1 Lookup} *)

  (** [state.nodes.find(variable)] *)
  Definition find_node (s : gst) (v : var) : option nat := find_pos (var_veqb v) (g_vars s).

  Definition node_var (s : gst) (a : nat) : res var := vget (g_vars s) a.

  (** [NodeLocation] (StateAware.h): the position of a cluster in the list, its
      length standing for [end()], or the evidence *)
  Inductive loc := LCl (i : nat) | LEv (value : nat).

  (** [StateAware::locate] (StateAware.cpp:44-61) *)
  Definition locate (s : gst) (v : var) : option (nat * loc) :=
    match find_node s v with
    | None => None
    | Some a =>
        match g_ev s a with
        | Some value => Some (a, LEv value)
        | None =>
            match find_pos (fun cl => mem a (cl_nodes cl)) (g_cl s) with
            | Some i => Some (a, LCl i)
            | None => Some (a, LCl (length (g_cl s)))
            end
        end
    end.

  (** [StateAware::findVariable] (StateAware.cpp:14-24) *)
  Definition find_variable (s : gst) (name : string) : res var :=
    match find (fun v => String.eqb (vname v) name) (g_vars s) with
    | Some v => Ok v
    | None => Throw
    end.

  (** [getHiddenVariables] (StateAware.cpp:26-34) *)
  Definition hidden_variables (e : env) (s : gst) : list var :=
    fold_left (fun acc a => match nth_error (g_vars s) a with Some v => vset_add acc v | None => acc end)
              (flat_map (fun cl => e_ord e (gsize s) (cl_nodes cl)) (g_cl s)) [].

  (** [getObservedVariables] (StateAware.cpp:36-42) *)
  Definition observed_variables (e : env) (s : gst) : list var :=
    fold_left (fun acc a => match nth_error (g_vars s) a with Some v => vset_add acc v | None => acc end)
              (e_ord e (gsize s) (keys (gsize s) (g_ev s))) [].

  (** {1 Clusters} *)

  Definition nodes_of (l : list (list nat)) (i : nat) : list nat := nth i l [].

  (** the elements of a list at the positions that are not in [ps] *)
  Definition without {A} (ps : list nat) (l : list A) : list A :=
    map snd (filter (fun p => negb (mem (fst p) ps)) (combine (seq 0 (length l)) l)).

  (** one iteration of [compute_clusters_] (Types.cpp:141-169) *)
  Definition cluster_step (e : env) (s : gst) (res : list (list nat)) (a : nat) : list (list nat) :=
    let hits :=
      nodup Nat.eq_dec
        (flat_map (fun k => match find_pos (mem k) res with Some i => [i] | None => [] end)
                  (e_ord e a (keys (gsize s) (nd_act (g_node s a))))) in
    match hits with
    | [] => res ++ [[a]]
    | [i] => lset res i (a :: nodes_of res i)
    | _ => without hits res ++ [a :: flat_map (nodes_of res) (e_ord e a hits)]
    end.

  (** [compute_clusters_], [compute_clusters] (Types.cpp:136-180) *)
  Definition compute_clusters (e : env) (s : gst) (nodes : list nat) : list cluster :=
    map (fun l => mkCl l None) (fold_left (cluster_step e s) (e_ord e (gsize s) nodes) []).

  (** {1 Insertion} *)

  Section Heap.
    (** the factor objects, by address *)
    Variable H : nat -> func N.

    Definition fvars (f : nat) : list var := f_vars (H f).

    (** [FactorsAware::findOrMakeNode] (FactorsAware.cpp:50-67), with
        [check_is_same_variable] (FactorsAware.cpp:41-47) *)
    Definition find_or_make (s : gst) (v : var) : out gst (nat * loc) :=
      match locate s v with
      | Some (a, l) =>
          do (w, s) <- lift (node_var s a) s ;;
          if var_peqb v w then Ret (a, l) s else Thr s
      | None =>
          let n := gsize s in
          let s1 := mkG (g_vars s ++ [v]) (fupd (g_node s) n empty_node) (g_next s)
                        (g_cl s ++ [mkCl [n] None]) (g_ev s) (g_all s) (g_last s) (g_iters s) (g_pool s) in
          Ret (n, LCl (length (g_cl s))) s1
      end.

    (** [FactorsAware::addUnaryDistribution] (FactorsAware.cpp:69-75) *)
    Definition add_unary (s : gst) (f : nat) : out gst unit :=
      do (v, s) <- lift (vget (fvars f) 0) s ;;
      do ((a, _), s) <- find_or_make s v ;;
      Ret tt (drop_merged (set_node s a (with_un (g_node s a) (nd_un (g_node s a) ++ [f]))) a).

    (** [hybrid_insertion] (FactorsAware.cpp:78-85) *)
    Definition hybrid_insertion (s : gst) (hid ev value f : nat) : out gst unit :=
      let s := disable s hid ev f in
      do (w, s) <- lift (node_var s ev) s ;;
      do (m, s) <- lift (evidence_factor (H f) w value) s ;;
      do (_, s) <- set_dis_msg s hid ev m ;;
      Ret tt (drop_merged s hid).

    (** dereference of an iterator on the clusters *)
    Definition get_cl (s : gst) (i : nat) : res cluster := vget (g_cl s) i.

    (** the connection of two nodes (FactorsAware.cpp:104-135). The union of the
        sets of nodes of two clusters is the append of the lists: the clusters are
        disjoint. *)
    Definition connect (s : gst) (a b : nat) (la lb : loc) (f : nat) : out gst unit :=
      match la, lb with
      | LCl i, LCl j =>
          let s := activate s a b f in
          do (ci, s) <- lift (get_cl s i) s ;;
          let s := set_cl s (lset (g_cl s) i (mkCl (cl_nodes ci) None)) in
          if i =? j then Ret tt s
          else
            do (cj, s) <- lift (get_cl s j) s ;;
            Ret tt (set_cl s (without [j] (lset (g_cl s) i (mkCl (cl_nodes ci ++ cl_nodes cj) None))))
      | LCl _, LEv value => hybrid_insertion s a b value f
      | LEv value, LCl _ => hybrid_insertion s b a value f
      | LEv _, LEv _ => Ret tt (disable s a b f)
      end.

    (** [FactorsAware::addBinaryDistribution] (FactorsAware.cpp:88-136). The
        clusters are a [std::list]: the iterator of the first node is not
        invalidated by the creation of the second. *)
    Definition add_binary (s : gst) (f : nat) : out gst unit :=
      do (va, s) <- lift (vget (fvars f) 0) s ;;
      do (vb, s) <- lift (vget (fvars f) (length (fvars f) - 1)) s ;;
      do ((a, la), s) <- find_or_make s va ;;
      do ((b, lb), s) <- find_or_make s vb ;;
      if is_some (act s a b) || is_some (dis s a b) then Thr s
      else connect s a b la lb f.

    (** [FactorsAware::addDistribution] (FactorsAware.cpp:15-38); [None] is the
        null pointer *)
    Definition add_distribution (s : gst) (d : option nat) : out gst unit :=
      match d with
      | None => Thr s
      | Some f =>
          if mem f (g_all s) then Thr s
          else
            let s := reset_belief s in
            do (_, s) <-
              (match length (fvars f) with
               | 1 => add_unary s f
               | 2 => add_binary s f
               | _ => Thr s
               end) ;;
            Ret tt (set_all s (g_all s ++ [f]))
      end.

    (** {1 Evidences} *)

    (** the loop of EvidenceManager.cpp:55-61 *)
    Definition send_evidence (e : env) (a value : nat) (s : gst) : out gst unit :=
      do (w, s) <- lift (node_var s a) s ;;
      ofold (fun b s =>
               match dis s b a with
               | None => Undef
               | Some c =>
                   do (m, s) <- lift (evidence_factor (H (c_fac c)) w value) s ;;
                   do (_, s) <- set_dis_msg s b a m ;;
                   Ret tt (drop_merged s b)
               end)
            (e_ord e a (keys (gsize s) (nd_dis (g_node s a)))) s.

    (** [EvidenceSetter::setEvidence] (EvidenceManager.cpp:16-63). The loop
        31-33 takes each time the first active connection and disables it, i.e.
        visits all of them in some order. *)
    Definition set_evidence (e : env) (s : gst) (v : var) (value : nat) : out gst unit :=
      if vsize v <=? value then Thr s
      else
        match locate s v with
        | None => Thr s
        | Some (a, l) =>
            do (_, s) <-
              (match l with
               | LCl i =>
                   do (_, s) <- ofold (fun b s => disable_known s a b)
                                  (e_ord e a (keys (gsize s) (nd_act (g_node s a)))) s ;;
                   do (ci, s) <- lift (get_cl s i) s ;;
                   let s :=
                     if length (cl_nodes ci) =? 1 then set_cl s (without [i] (g_cl s))
                     else
                       let rest := filter (fun k => negb (k =? a)) (cl_nodes ci) in
                       let s := set_cl s (without [i] (g_cl s)) in
                       set_cl s (g_cl s ++ compute_clusters e s rest) in
                   Ret tt (set_ev s (fupd (g_ev s) a (Some value)))
               | LEv _ => Ret tt (set_ev s (fupd (g_ev s) a (Some value)))
               end) ;;
            do (_, s) <- send_evidence e a value s ;;
            Ret tt (reset_belief s)
        end.

    Definition set_evidence_name (e : env) (s : gst) (name : string) (value : nat) : out gst unit :=
      do (v, s) <- lift (find_variable s name) s ;; set_evidence e s v value.

    (** [EvidenceRemover::removeEvidence_] (EvidenceManager.cpp:70-85). The loop
        79-83 activates the first disabled connection until there are none. *)
    Definition remove_evidence_ (e : env) (v : var) (s : gst) : out gst unit :=
      match find_node s v with
      | None => Thr s
      | Some a =>
          match g_ev s a with
          | None => Thr s
          | Some _ =>
              let s := reset_belief s in
              let s := set_ev s (fupd (g_ev s) a None) in
              do (_, s) <-
                ofold (fun b s =>
                         match dis s a b with
                         | None => Undef
                         | Some c => Ret tt (activate (drop_merged s b) a b (c_fac c))
                         end)
                      (e_ord e a (keys (gsize s) (nd_dis (g_node s a)))) s ;;
              Ret tt (drop_merged s a)
          end
      end.

    (** [EvidenceRemover::resetState] (EvidenceManager.cpp:125-134) *)
    Definition reset_state (e : env) (s : gst) : gst :=
      set_cl s (compute_clusters e s
        (filter (fun a => negb (is_some (g_ev s a))) (e_ord e (gsize s) (seq 0 (gsize s))))).

    (** [removeEvidence] (EvidenceManager.cpp:87-94) *)
    Definition remove_evidence (e : env) (s : gst) (v : var) : out gst unit :=
      do (_, s) <- remove_evidence_ e v s ;; Ret tt (reset_state e s).
    Definition remove_evidence_name (e : env) (s : gst) (name : string) : out gst unit :=
      do (v, s) <- lift (find_variable s name) s ;; remove_evidence e s v.

    (** [removeEvidences] (EvidenceManager.cpp:96-114). The set of variables is
        a list given in the order it is visited. *)
    Definition remove_evidences (e : env) (s : gst) (vs : list var) : out gst unit :=
      match vs with
      | [] => Ret tt s
      | _ => do (_, s) <- ofold (remove_evidence_ e) vs s ;; Ret tt (reset_state e s)
      end.
    Definition remove_evidences_names (e : env) (s : gst) (names : list string) : out gst unit :=
      do (vs, s) <- lift (rmap (find_variable s) names) s ;;
      remove_evidences e s (fold_left vset_add vs []).

    (** [removeAllEvidences] (EvidenceManager.cpp:116-123): the first evidence is
        removed until there are none *)
    Definition remove_all_evidences (e : env) (s : gst) : out gst unit :=
      do (_, s) <-
        ofold (fun a s => do (v, s) <- lift (node_var s a) s ;; remove_evidence_ e v s)
              (e_ord e (gsize s) (keys (gsize s) (g_ev s))) s ;;
      Ret tt (reset_state e s).
  End Heap.
End Graph.
