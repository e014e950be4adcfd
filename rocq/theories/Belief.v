(** Model of the propagation of the belief.
    Sources: /repo/src/src/structure/Types.cpp, BaselineLoopyPropagator.cpp,
    /repo/src/src/structure/bases/BeliefAware.cpp, PoolAware.cpp. *)
From Coq Require Import String List Arith Bool Permutation.
From Verif Require Import Res Num Categoric Func Special Graph.
Import ListNotations.
Open Scope nat_scope.

(** the elements of a list in the order given by a permutation of the positions *)
Definition permute {A} (p : list nat -> list nat) (l : list A) : list A :=
  flat_map (fun i => match nth_error l i with Some x => [x] | None => [] end)
           (p (seq 0 (length l))).

Section Belief.
  Context {N : num}.
  Notation gst := (gst (N:=N)).
  Notation conn := (conn (N:=N)).

  Section Heap.
    Variable H : nat -> func N.

    (** [gather_unaries] (Types.cpp:16-25) *)
    Definition gather_unaries (e : env) (s : gst) (a : nat) : list (option (func N)) :=
      map (fun f => Some (H f)) (nd_un (g_node s a)) ++
      map (fun b => match dis s a b with Some c => c_msg c | None => None end)
          (e_ord e a (keys (gsize s) (nd_dis (g_node s a)))).

    (** [Node::updateMergedUnaries] (Types.cpp:28-35) *)
    Definition update_merged (e : env) (a : nat) (s : gst) : out gst unit :=
      match gather_unaries e s a with
      | [] => do (v, s) <- lift (node_var s a) s ;; Ret tt (set_merged s a (merged_var v))
      | l => do (m, s) <- lift (merged_unaries l) s ;; Ret tt (set_merged s a m)
      end.

    (** the entries of the topology with a given sender (Types.cpp:117-132).
        [find(sender)->second] on a missing entry is undefined. The
        dependencies are an [unordered_set] of pointers. *)
    Definition sender_topo (e : env) (s : gst) (a : nat) : res (list topo) :=
      let ks := e_ord e a (keys (gsize s) (nd_act (g_node s a))) in
      rmap (fun r =>
              match act s r a with
              | None => UB
              | Some c =>
                  let* deps :=
                    rmap (fun k => match act s a k with Some d => Ok (k, c_uid d) | None => UB end)
                         (e_ord e r (filter (fun k => negb (k =? r)) ks)) in
                  Ok (mkTopo a r (c_uid c) deps)
              end) ks.

    (** [HiddenCluster::updateConnectivity] (Types.cpp:112-134) of the cluster at
        position [i]. The vector is filled in place by the code; the model
        stores it when it is complete. *)
    Fixpoint topo_loop (e : env) (nodes : list nat) (acc : list topo) (s : gst) : out gst (list topo) :=
      match nodes with
      | [] => Ret acc s
      | a :: r =>
          do (_, s) <- update_merged e a s ;;
          do (ts, s) <- lift (sender_topo e s a) s ;;
          topo_loop e r (acc ++ ts) s
      end.
    Definition update_connectivity (e : env) (i : nat) (s : gst) : out gst unit :=
      do (cl, s) <- lift (get_cl s i) s ;;
      do (ts, s) <- topo_loop e (e_ord e (gsize s) (cl_nodes cl)) [] s ;;
      Ret tt (set_cl s (lset (g_cl s) i (mkCl (cl_nodes cl) (Some ts)))).

    (** dereference of a pointer to a connection *)
    Definition deref (s : gst) (a b uid : nat) : res conn :=
      match act s a b with
      | Some c => if c_uid c =? uid then Ok c else UB
      | None => UB
      end.

    (** [canUpdateMessage] (Types.cpp:70-75) *)
    Fixpoint can_update (s : gst) (snd : nat) (deps : list (nat * nat)) : res bool :=
      match deps with
      | [] => Ok true
      | (k, u) :: r =>
          let* c := deref s snd k u in
          match c_msg c with
          | None => Ok false
          | Some _ => can_update s snd r
          end
      end.

    (** the messages of the dependencies (Types.cpp:81-89); [None]: one of them
        is null *)
    Fixpoint dep_messages (s : gst) (snd : nat) (deps : list (nat * nat)) : res (option (list (func N))) :=
      match deps with
      | [] => Ok (Some [])
      | (k, u) :: r =>
          let* c := deref s snd k u in
          match c_msg c with
          | None => Ok None
          | Some m =>
              let* ms := dep_messages s snd r in
              Ok (match ms with Some l => Some (m :: l) | None => None end)
          end
      end.

    (** result of [updateMessage]: the biggest float or a difference *)
    Inductive vari := VMax | VNum (x : N).

    (** [updateMessage] (Types.cpp:77-110); [None] is [nullopt] *)
    Definition update_message (k : kind) (t : topo) (s : gst) : out gst (option vari) :=
      match nd_merged (g_node s (t_snd t)) with
      | None => Thr s
      | Some mu =>
          do (ms, s) <- lift (dep_messages s (t_snd t) (t_deps t)) s ;;
          match ms with
          | None => Ret None s
          | Some ms =>
              do (mg, s) <- lift (merged_unaries (Some mu :: map Some ms)) s ;;
              do (c, s) <- lift (deref s (t_rcv t) (t_snd t) (t_uid t)) s ;;
              do (m, s) <- lift (message k mg (H (c_fac c))) s ;;
              do (_, s) <- set_act_msg s (t_rcv t) (t_snd t) (Some m) ;;
              match c_msg c with
              | None => Ret (Some VMax) s
              | Some old => do (d, s) <- lift (diff old m) s ;; Ret (Some (VNum d)) s
              end
          end
      end.

    (** [reset_messages] (BeliefAware.cpp:31-39) *)
    Definition reset_messages (e : env) (s : gst) : out gst unit :=
      ofold (fun cl s =>
        ofold (fun a s =>
          ofold (fun b s => set_act_msg s a b None)
                (e_ord e a (keys (gsize s) (nd_act (g_node s a)))) s)
          (e_ord e (gsize s) (cl_nodes cl)) s) (g_cl s) s.

    (** the order in which the tasks of a batch are executed: with one thread
        the order of the list, otherwise any order (see Pool.v) *)
    Definition schedule {A} (e : env) (pool : nat) (l : list A) : list A :=
      if pool =? 1 then l else permute (e_sched e (length l)) l.

    (** one round of [message_passing]: the tasks that can be executed and
        those left (BeliefAware.cpp:55-66) *)
    Fixpoint select (s : gst) (left : list topo) : res (list topo * list topo) :=
      match left with
      | [] => Ok ([], [])
      | t :: r =>
          let* b := can_update s (t_snd t) (t_deps t) in
          let* (ready, wait) := select s r in
          Ok (if b then (t :: ready, wait) else (ready, t :: wait))
      end.

    (** [message_passing] (BeliefAware.cpp:50-73). Each round executes at least
        one task: the fuel is never exhausted. *)
    Fixpoint mp_loop (fuel : nat) (e : env) (pool : nat) (k : kind) (left : list topo) (s : gst) : out gst bool :=
      match left with
      | [] => Ret true s
      | _ =>
          match fuel with
          | 0 => NoStop
          | S n =>
              do ((ready, wait), s) <- lift (select s left) s ;;
              match ready with
              | [] => Ret false s
              | _ =>
                  do (_, s) <- ofold (fun t s => do (_, s) <- update_message k t s ;; Ret tt s)
                                 (schedule e pool ready) s ;;
                  mp_loop n e pool k wait s
              end
          end
      end.
    Definition message_passing (e : env) (pool : nat) (k : kind) (i : nat) (s : gst) : out gst bool :=
      do (cl, s) <- lift (get_cl s i) s ;;
      match cl_topo cl with
      | None => Thr s
      | Some ts => mp_loop (length ts) e pool k ts s
      end.

    (** {1 Loopy propagation} *)

    (** the pointers to connections: owner of the map and key *)
    Definition pmem (p : nat * nat) (l : list (nat * nat)) : bool :=
      existsb (fun q => (fst p =? fst q) && (snd p =? snd q)) l.
    Definition t_conn (t : topo) : nat * nat := (t_rcv t, t_snd t).
    Definition t_depconns (t : topo) : list (nat * nat) := map (fun d => (t_snd t, fst d)) (t_deps t).

    (** one batch: the inner loop of [compute_loopy_order]
        (BaselineLoopyPropagator.cpp:41-54), with [have_no_changing_deps] (14-23) *)
    Fixpoint loopy_batch (open : list topo) (should_not will : list (nat * nat)) : list topo * list topo :=
      match open with
      | [] => ([], [])
      | t :: r =>
          if negb (pmem (t_conn t) should_not) && negb (existsb (fun d => pmem d will) (t_depconns t))
          then let (b, o) := loopy_batch r (should_not ++ t_depconns t) (will ++ [t_conn t]) in (t :: b, o)
          else let (b, o) := loopy_batch r should_not will in (b, t :: o)
      end.
    (** [while (!open.empty())] (BaselineLoopyPropagator.cpp:36-55) *)
    Fixpoint loopy_batches (fuel : nat) (open : list topo) : res (list (list topo)) :=
      match open with
      | [] => Ok []
      | _ =>
          match fuel with
          | 0 => Loop
          | S n =>
              let (b, o) := loopy_batch open [] [] in
              let* bs := loopy_batches n o in Ok (b :: bs)
          end
      end.
    (** [compute_loopy_order] (BaselineLoopyPropagator.cpp:27-64) *)
    Definition loopy_order (pool : nat) (ts : list topo) : res (list (list topo)) :=
      if 1 <? pool then loopy_batches (length ts) ts else Ok [ts].

    (** [DEFAULT_VARIATION_TOLLERANCE] (BaselineLoopyPropagator.cpp:66) *)
    Definition tolerance : N :=
      let ten := nofnat 10 in (n1 / (ten * (ten * ten)))%num.

    Definition vmax (a b : vari) : vari :=
      match a, b with
      | VMax, _ => VMax
      | _, VMax => VMax
      | VNum x, VNum y => VNum (nmax x y)
      end.
    Definition below_tolerance (v : vari) : bool :=
      match v with VMax => false | VNum x => nltb x tolerance end.

    (** the tasks of a batch, with the biggest variation seen
        (BaselineLoopyPropagator.cpp:88-100). The code keeps a maximum per
        thread and takes the maximum of them: the model keeps one.
        [std::optional::value] of [nullopt] throws. *)
    Fixpoint loopy_tasks (k : kind) (l : list topo) (v : vari) (s : gst) : out gst vari :=
      match l with
      | [] => Ret v s
      | t :: r =>
          do (o, s) <- update_message k t s ;;
          match o with
          | None => Thr s
          | Some x => loopy_tasks k r (vmax v x) s
          end
      end.
    Fixpoint loopy_sweep (e : env) (pool : nat) (k : kind) (bs : list (list topo)) (v : vari) (s : gst) : out gst vari :=
      match bs with
      | [] => Ret v s
      | b :: r =>
          do (v, s) <- loopy_tasks k (schedule e pool b) v s ;;
          loopy_sweep e pool k r v s
      end.
    (** the loop on the iterations (BaselineLoopyPropagator.cpp:83-106) *)
    Fixpoint loopy_iter (n : nat) (e : env) (pool : nat) (k : kind) (bs : list (list topo)) (s : gst) : out gst bool :=
      match n with
      | 0 => Ret false s
      | S n =>
          do (v, s) <- loopy_sweep e pool k bs (VNum n0) s ;;
          if below_tolerance v then Ret true s else loopy_iter n e pool k bs s
      end.

    (** messages set to ones (BaselineLoopyPropagator.cpp:74-79) *)
    Definition set_ones (e : env) (cl : cluster) (s : gst) : out gst unit :=
      ofold (fun a s =>
        do (v, s) <- lift (node_var s a) s ;;
        ofold (fun b s => set_act_msg s a b (Some (merged_var v)))
              (e_ord e a (keys (gsize s) (nd_act (g_node s a)))) s)
        (e_ord e (gsize s) (cl_nodes cl)) s.

    (** [BaselineLoopyPropagator::propagateBelief] (BaselineLoopyPropagator.cpp:69-107) *)
    Definition loopy_propagate (e : env) (pool : nat) (k : kind) (i : nat) (s : gst) : out gst bool :=
      do (cl, s) <- lift (get_cl s i) s ;;
      do (_, s) <- set_ones e cl s ;;
      match cl_topo cl with
      | None => Thr s
      | Some ts =>
          do (bs, s) <- lift (loopy_order pool ts) s ;;
          loopy_iter (g_iters s) e pool k bs s
      end.

    (** {1 Propagation} *)

    (** [wouldNeedPropagation] (BeliefAware.cpp:25-28) *)
    Definition would_need (s : gst) (k : kind) : bool :=
      match g_last s with
      | None => true
      | Some r => negb (kind_eqb (pr_kind r) k)
      end.

    (** preparation of a cluster (BeliefAware.cpp:89-97) *)
    Definition prepare (e : env) (i : nat) (s : gst) : out gst unit :=
      do (cl, s) <- lift (get_cl s i) s ;;
      match cl_topo cl with
      | None => update_connectivity e i s
      | Some _ =>
          ofold (fun a s => match nd_merged (g_node s a) with
                            | None => update_merged e a s
                            | Some _ => Ret tt s
                            end)
                (e_ord e (gsize s) (cl_nodes cl)) s
      end.

    (** the loop on the clusters (BeliefAware.cpp:88-112) *)
    Fixpoint prop_loop (e : env) (pool : nat) (k : kind) (is : list nat) (r : presult) (s : gst) : out gst presult :=
      match is with
      | [] => Ret r s
      | i :: rest =>
          do (_, s) <- prepare e i s ;;
          do (cl, s) <- lift (get_cl s i) s ;;
          do (tree, s) <- message_passing e pool k i s ;;
          if (tree : bool) then
            prop_loop e pool k rest
              (mkPR (pr_kind r) (pr_completed r) (pr_structs r ++ [(true, length (cl_nodes cl))])) s
          else
            do (done, s) <- loopy_propagate e pool k i s ;;
            prop_loop e pool k rest
              (mkPR (pr_kind r) (pr_completed r && done) (pr_structs r ++ [(false, length (cl_nodes cl))])) s
      end.

    (** [BeliefAware::propagateBelief] (BeliefAware.cpp:76-114). Only the default
        loopy propagator is modelled. [getPool] throws on a disengaged optional. *)
    Definition propagate (e : env) (k : kind) (s : gst) : out gst unit :=
      if negb (would_need s k) then Ret tt s
      else
        match g_pool s with
        | None => Thr s
        | Some pool =>
            do (_, s) <- reset_messages e s ;;
            do (r, s) <- prop_loop e pool k (seq 0 (length (g_cl s))) (mkPR k true []) s ;;
            Ret tt (set_last s (Some r))
        end.

    (** {1 Size of the pool} *)

    (** [setPoolSize] (PoolAware.cpp:76-81). [pool->size()] on a disengaged
        optional is undefined; [pool.emplace(0)] destroys the pool, then the
        constructor throws. *)
    Definition set_pool_size (n : nat) (s : gst) : out gst unit :=
      match g_pool s with
      | None => Undef
      | Some p =>
          if n =? p then Ret tt s
          else if n =? 0 then Thr (set_pool s None)
          else Ret tt (set_pool s (Some n))
      end.
    (** a scope with a [ScopedPoolActivator] (PoolAware.h:63-73): the destructor
        runs also when an exception leaves the scope, but not when the
        constructor throws *)
    Definition scoped_pool {A} (n : nat) (body : gst -> out gst A) (s : gst) : out gst A :=
      do (_, s) <- set_pool_size n s ;;
      match body s with
      | Ret a s => Ret a (set_pool s (Some 1))
      | Thr s => Thr (set_pool s (Some 1))
      | Undef => Undef
      | NotNum => NotNum
      | NoStop => NoStop
      end.
  End Heap.
End Belief.
