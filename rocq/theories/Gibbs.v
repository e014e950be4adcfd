(** Model of the Gibbs sampler.
    Source: /repo/src/src/structure/GibbsSampler.cpp and GibbsSampler.h. *)
From Coq Require Import String List Arith Bool.
From Verif Require Import Res Num Categoric Func Special Graph Belief.
Import ListNotations.
Open Scope nat_scope.

(** [SamplesGenerationContext] (GibbsSampler.h:40-62); the seed is modelled by
    the numbers drawn by the engines, see [draw] *)
Record sctx := mkCtx { x_samples : nat; x_delta : option nat; x_transient : option nat }.

Section Gibbs.
  Context {N : num}.
  Notation gst := (gst (N:=N)).

  (** [UniformSampler::sampleFromDiscrete] (GibbsSampler.cpp:20-31), given the
      number drawn *)
  Fixpoint sample_loop (l : list N) (k : nat) (cumul s : N) : option nat :=
    match l with
    | [] => None
    | x :: r => let c := (cumul + x)%num in if nltb c s then sample_loop r (S k) c s else Some k
    end.
  Definition sample_discrete (l : list N) (s : N) : nat :=
    match sample_loop l 0 n0 s with Some k => k | None => length l - 1 end.

  (** [SamplerNode::DynamicDependency], [SamplerNode] (GibbsSampler.h:77-90). The
      pointers to the values of the combination are positions. *)
  Record sdep := mkDep { d_sender : var; d_pos : nat; d_fac : nat }.
  Record snode := mkSN { sn_pos : nat; sn_static : func N; sn_deps : list sdep }.

  (** [combination_values_map.find(variable)->second] (GibbsSampler.cpp:53-58,
      70-71, 77-78): position of the variable in [getAllVariables()] *)
  Definition comb_pos (s : gst) (v : var) : res nat :=
    match find_node s v with Some k => Ok k | None => UB end.

  (** the values when the sampling starts (GibbsSampler.cpp:51-64). Simplification:
      the evidences are keyed by the position of their variable. *)
  Definition start_comb (s : gst) : list nat :=
    map (fun a => match g_ev s a with Some k => k | None => 0 end) (seq 0 (gsize s)).

  Section Heap.
    Variable H : nat -> func N.

    (** one node (GibbsSampler.cpp:67-80). [Cache::get] throws when empty. *)
    Definition make_node (e : env) (a : nat) (s : gst) : out gst snode :=
      do (_, s) <- update_merged H e a s ;;
      do (v, s) <- lift (node_var s a) s ;;
      do (p, s) <- lift (comb_pos s v) s ;;
      match nd_merged (g_node s a) with
      | None => Thr s
      | Some m =>
          do (ds, s) <- lift (rmap (fun b =>
              match act s a b with
              | None => UB
              | Some c => let* w := node_var s b in let* q := comb_pos s w in Ok (mkDep w q (c_fac c))
              end) (e_ord e a (keys (gsize s) (nd_act (g_node s a))))) s ;;
          Ret (mkSN p m ds) s
      end.
    (** [makeSamplerNodes] (GibbsSampler.cpp:48-83) *)
    Fixpoint make_node_list (e : env) (l : list nat) (s : gst) : out gst (list snode) :=
      match l with
      | [] => Ret [] s
      | a :: r =>
          do (x, s) <- make_node e a s ;;
          do (xs, s) <- make_node_list e r s ;;
          Ret (x :: xs) s
      end.
    Definition make_nodes (e : env) (s : gst) : out gst (list snode) :=
      make_node_list e (flat_map (fun cl => e_ord e (gsize s) (cl_nodes cl)) (g_cl s)) s.

    (** the value drawn by [make_sampling_task] (GibbsSampler.cpp:86-100). When
        all the values of the product are null the normalization gives NaN for
        all of them, no comparison of [sampleFromDiscrete] succeeds and the last
        value is returned. *)
    Definition sample_value (nd : snode) (comb : list nat) (x : N) : res nat :=
      let* evs := rmap (fun d => let* k := vget comb (d_pos d) in evidence_factor (H (d_fac d)) (d_sender d) k) (sn_deps nd) in
      match merged_unaries (Some (sn_static nd) :: map Some evs) with
      | Ok m => let* p := get_probabilities m in Ok (sample_discrete p x)
      | Nan => let* v := vget (f_vars (sn_static nd)) 0 in Ok (vsize v - 1)
      | Throw => Throw
      | UB => UB
      | Loop => Loop
      end.

    (** the combination and how many numbers each engine has drawn *)
    Record sstate := mkSS { ss_comb : list nat; ss_cnt : nat -> nat }.
    (** [draw t i]: the [i]-th number drawn by the engine of the thread [t] *)
    Variable draw : nat -> nat -> N.

    (** the task of a node executed by the thread [tid] *)
    Definition sample_task (tid : nat) (nd : snode) (st : sstate) : res sstate :=
      let* k := sample_value nd (ss_comb st) (draw tid (ss_cnt st tid)) in
      let* c := vset (ss_comb st) (sn_pos nd) k in
      Ok (mkSS c (fupd (ss_cnt st) tid (S (ss_cnt st tid)))).

    (** one batch: the inner loop of [make_sampling_tasks] (GibbsSampler.cpp:126-145) *)
    Fixpoint gibbs_batch (open : list snode) (should_not will : list nat) : list snode * list snode :=
      match open with
      | [] => ([], [])
      | nd :: r =>
          if negb (mem (sn_pos nd) should_not) && negb (existsb (fun d => mem (d_pos d) will) (sn_deps nd))
          then let (b, o) := gibbs_batch r (should_not ++ map d_pos (sn_deps nd)) (will ++ [sn_pos nd]) in (nd :: b, o)
          else let (b, o) := gibbs_batch r should_not will in (b, nd :: o)
      end.
    Fixpoint gibbs_batches (fuel : nat) (open : list snode) : res (list (list snode)) :=
      match open with
      | [] => Ok []
      | _ =>
          match fuel with
          | 0 => Loop
          | S n =>
              let (b, o) := gibbs_batch open [] [] in
              let* bs := gibbs_batches n o in Ok (b :: bs)
          end
      end.
    (** [make_sampling_tasks] (GibbsSampler.cpp:102-148) *)
    Definition gibbs_order (pool : nat) (nodes : list snode) : res (list (list snode)) :=
      if pool =? 1 then Ok [nodes] else gibbs_batches (length nodes) nodes.

    (** [parallelFor] on a batch: the task [k] is executed by the thread [k mod
        pool]. The tasks are executed in order; GibbsPool.v proves that the
        interleaving of the threads does not matter. *)
    Fixpoint batch_loop (pool k : nat) (b : list snode) (st : sstate) : res sstate :=
      match b with
      | [] => Ok st
      | nd :: r => let* st := sample_task (k mod pool) nd st in batch_loop pool (S k) r st
      end.
    (** [evolve_samples] (GibbsSampler.cpp:165-172) *)
    Definition sweep (pool : nat) (bs : list (list snode)) (st : sstate) : res sstate :=
      rfold (fun st b => batch_loop pool 0 b st) bs st.
    Fixpoint evolve (pool : nat) (bs : list (list snode)) (iterations : nat) (st : sstate) : res sstate :=
      match iterations with
      | 0 => Ok st
      | S n => let* st := sweep pool bs st in evolve pool bs n st
      end.
    (** the loop of [makeSamples] (GibbsSampler.cpp:193-196) *)
    Fixpoint collect (pool : nat) (bs : list (list snode)) (delta n : nat) (st : sstate) : res (list (list nat)) :=
      match n with
      | 0 => Ok []
      | S n =>
          let* st' := evolve pool bs delta st in
          let* r := collect pool bs delta n st' in
          Ok (ss_comb st :: r)
      end.

    (** [delta_and_burn_out] (GibbsSampler.cpp:150-163). [ceil10 n] is
        [ceil(n * 0.1)] computed with floating point numbers: any number. *)
    Definition delta_burn (ceil10 : nat -> nat) (c : sctx) : nat * nat :=
      let d := match x_delta c with Some d => d | None => ceil10 (x_samples c) end in
      let d := Nat.max 1 d in
      (d, match x_transient c with Some b => b | None => 10 * d end).

    (** [makeSamples] (GibbsSampler.cpp:175-198) *)
    Definition make_samples (e : env) (ceil10 : nat -> nat) (c : sctx) (threads : nat) (s : gst) : out gst (list (list nat)) :=
      scoped_pool threads (fun s =>
        let (delta, burn) := delta_burn ceil10 c in
        let comb := start_comb s in
        do (nodes, s) <- make_nodes e s ;;
        match g_pool s with
        | None => Thr s
        | Some pool =>
            lift (let* bs := gibbs_order pool nodes in
                  let* st := evolve pool bs burn (mkSS comb (fun _ => 0)) in
                  collect pool bs delta (x_samples c) st) s
        end) s.
  End Heap.
End Gibbs.
