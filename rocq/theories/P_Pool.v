(** Properties C29 - C33: termination of the propagations, batches of the loopy
    propagation, pool of threads, independence of the schedule *)
From Coq Require Import String List Arith Bool Lia Permutation Relations QArith Qcanon.
From Verif Require Import Res Num Categoric Combs Func FuncProofs GroupProofs FactorProofs FactorApi Special SpecialProofs
  Graph GraphLemmas Clusters Belief Query GraphInv EvidInv BeliefInv BigOp Tree Cycle BPStep BPRun GraphSpec Hist
  P_Categoric P_Factor Demo P_Graph BeliefSpec Sums Exact BeliefHist Queries Rebuild BeliefDemo P_Belief
  Pool PoolProofs PoolComm Indep SchedIndep PoolMsg Halt.
Import ListNotations.
Open Scope nat_scope.

(** {1 C29} *)
Section C29.
  Context {N : num} (OK : num_ok N).
  Variable H : nat -> func N.
  Hypothesis HB : forall f, built (H f).
  Notation gst := (gst (N:=N)).
  Implicit Types s : gst.
  Local Notation HGd := (built_goods OK H HB).
  Local Notation HSd := (built_solids H HB).

  (** every call of the API ends, after any history: no restriction at all on
      the calls that came before, also those that threw *)
  Theorem C29_calls_terminate : forall G ops s e op, reach H G ops s -> env_ok e -> call H e op s <> NoStop.
  Proof. intros G ops s e op. apply (reach_stops H HSd). Qed.

  (** a propagation computes, in a cluster that is a tree, every message once;
      in the others some messages at most once, then sweeps in which all the messages
      are computed once: they stop at the first one that settles (no message changes
      1/1000 or more), or when the allowed number of iterations is reached. The
      propagation is reported as completed when the last sweep of each cluster that
      is not a tree settled. [work] lists the computations, with the changes. *)
  Theorem C29_messages_computed : forall ops s e k s', reach H no_failed_removal ops s -> env_ok e ->
    would_need s k = true -> propagate H e k s = Ret tt s' ->
    exists r ws, g_last s' = Some r /\ map cw_nodes ws = map cl_nodes (g_cl s) /\
      pr_structs r = map (fun w => (cw_tree w, length (cw_nodes w))) ws /\
      work H e k (flat_map cw_msgs ws) s s' /\
      (pr_completed r = true <-> forall w, In w ws -> cw_done w = true) /\
      forall w, In w ws ->
        if cw_tree w then all_messages s (cw_nodes w) (map fst (cw_msgs w)) /\ cw_done w = true
        else exists first sweeps, cw_msgs w = first ++ concat sweeps /\ some_messages s (cw_nodes w) (map fst first) /\
          (forall x, In x sweeps -> all_messages s (cw_nodes w) (map fst x)) /\
          if cw_done w
          then length sweeps <= g_iters s /\ exists before last, sweeps = before ++ [last] /\ settled last /\ forall x, In x before -> ~ settled x
          else length sweeps = g_iters s /\ forall x, In x sweeps -> ~ settled x.
  Proof.
    intros ops s e k s' R E W Q. destruct (reach_abs H HSd no_failed_removal ops s (fun _ _ h => h) R) as [I _].
    destruct (propagate_work OK H e k s s' E I W Q) as (r & ws & A & B & C & D & F & G). exists r, ws. splits; auto.
    - rewrite D. apply forallb_forall.
    - intros w Iw. specialize (F w Iw). unfold cluster_work in F. destruct (cw_tree w); auto.
      destruct F as (tr & trs & F1 & F2 & F3 & F4). exists tr, trs. splits; auto.
  Qed.
End C29.

(** {1 C30} *)
Section C30.
  Context {N : num} (OK : num_ok N).
  Variable H : nat -> func N.
  Hypothesis HB : forall f, built (H f).
  Notation gst := (gst (N:=N)).
  Implicit Types s : gst.
  Local Notation HGd := (built_goods OK H HB).
  Local Notation HSd := (built_solids H HB).

  (** [t] writes the message from its sender to its receiver and reads those its
      sender gets from the other neighbours *)
  Definition writes (t : topo) : nat * nat := (t_snd t, t_rcv t).
  Definition reads (t : topo) (p : nat * nat) : Prop := In (fst p) (map fst (t_deps t)) /\ snd p = t_snd t.

  (** for every list of different messages *)
  Theorem C30_batches : forall threads ts, NoDup (map writes ts) -> 2 <= threads ->
    exists bs, loopy_order threads ts = Ok bs /\ Permutation (concat bs) ts /\
      forall b, In b bs -> forall t1 t2, In t1 b -> In t2 b -> t1 <> t2 -> writes t1 <> writes t2 /\ ~ reads t2 (writes t1).
  Proof.
    intros threads ts ND L. destruct (loopy_order_ok threads ts) as (bs & E & P). exists bs. split; auto. split; auto.
    intros b Ib t1 t2 I1 I2 NE. assert (W : writes t1 <> writes t2).
    { intros Q. apply NE. assert (J1 : In t1 ts) by (eapply Permutation_in; [exact P|]; apply in_concat; eauto). assert (J2 : In t2 ts) by (eapply Permutation_in; [exact P|]; apply in_concat; eauto).
      clear - ND Q J1 J2. induction ts as [|t ts IH]; [destruct J1|]. simpl in ND. inversion ND as [|? ? Ni ND']; subst. destruct J1 as [->|J1], J2 as [->|J2]; auto; exfalso; apply Ni; [rewrite Q|rewrite <- Q]; apply in_map; auto. }
    split; auto. unfold loopy_order in E. destruct (Nat.ltb_spec 1 threads) as [_|?]; [|lia].
    assert (IN : indeps b). { eapply (loopy_batches_sound (N:=N)); eauto. apply t_conn_edges. exact ND. }
    destruct IN as [_ IN]. destruct (IN t1 t2 I1 I2) as (_ & D & _). { intros Q. apply W. unfold t_conn in Q. injection Q as Q1 Q2. unfold writes. congruence. }
    intros [Q1 Q2]. apply D. unfold t_depconns, t_conn. simpl in *. rewrite <- Q2. apply in_map_iff in Q1 as (d & <- & Q1). apply in_map_iff. exists d. auto.
  Qed.
  (** with one thread there is one list, executed in order *)
  Theorem C30_one_thread : forall ts, loopy_order 1 ts = Ok [ts].
  Proof. auto. Qed.

  (** the messages of the clusters of a model: one for each ordered pair of
      hidden neighbours, depending on the other neighbours of the sender *)
  Theorem C30_cluster_messages : forall ops s cl ts, reach H no_failed_removal ops s -> In cl (g_cl s) -> cl_topo cl = Some ts ->
    NoDup (map writes ts) /\ (forall a b, In (a, b) (map writes ts) <-> In a (cl_nodes cl) /\ exists c, act s a b = Some c) /\
    forall t, In t ts -> forall p, reads t p <-> snd p = t_snd t /\ fst p <> t_rcv t /\ exists c, act s (t_snd t) (fst p) = Some c.
  Proof.
    intros ops s cl ts R I T. destruct (reach_abs H HSd no_failed_removal ops s (fun _ _ h => h) R) as [[_ CS] _].
    pose proof (cs_topo _ CS cl ts I T) as [A B C]. split; auto. split. exact B. intros t It p. destruct (C t It) as (_ & _ & D). unfold reads. split.
    - intros [Q1 Q2]. split; auto. apply in_map_iff in Q1 as ([k u] & Q1 & Ik). simpl in Q1. rewrite <- Q1. apply D in Ik as (Ne & d & Ad & _). eauto.
    - intros (Q1 & Q2 & c & Ac). split; auto. apply in_map_iff. exists (fst p, c_uid c). split; auto. apply D. eauto.
  Qed.
End C30.

(** {1 C31} *)
Section C31.
  Variable M : Type.
  Variable n : nat.
  Hypothesis Hn : 1 <= n.
  Variable jobs : list (tasks M).
  Variable m0 : M.
  (** the configuration reached when the threads move as in a schedule *)
  Notation after sched := (run M n jobs sched (start M m0)).

  (** the log [l] of the call [j] has every action of every task once, executed
      by the thread whose number is that of the task modulo the number of
      threads, the tasks of a thread in order; and nothing else *)
  Definition all_once (j : nat) (l : list entry) : Prop :=
    (forall k i, k < length (job M jobs j) -> i < length (nth k (job M jobs j) []) ->
       exists a b, l = a ++ (k mod n, (k, i)) :: b /\ forall e, In e (a ++ b) -> snd e <> (k, i)) /\
    (forall t k i, In (t, (k, i)) l -> t = k mod n /\ k < length (job M jobs j) /\ i < length (nth k (job M jobs j) [])).

  (** Full property: for every interleaving. It is proved for the interleavings
      that do not read an uninitialised pointer while the pool is being built
      ([C31_startup_refuted] below). *)
  Theorem C31_exactly_once_partial : forall sched, c_ub M (after sched) = false ->
    forall j l, nth_error (c_past M (after sched)) j = Some l -> all_once j l.
  Proof.
    intros sched U j l Q. pose proof (run_inv M n jobs Hn m0 sched _ (pinv_start M n jobs Hn m0) U) as [P _ _ _]. specialize (P j l Q). split.
    - intros k i Lk Li. exact (interleaving_once M n jobs Hn j l k i P Lk Li).
    - intros t k i I. destruct (interleaving_valid M n jobs Hn j l _ P I) as (A & B & C & D). simpl in *. auto.
  Qed.
  (** when the call [j] has returned its log is complete: the number of complete
      logs is the number of the calls that have returned *)
  Definition returned_calls (p : mpc) : nat :=
    match p with
    | MNew _ | MInit _ => 0
    | MPub j _ | MRun j _ _ | MWait j _ => j
    | MKill | MJoin _ | MDone => length jobs
    end.
  Theorem C31_returns_after_all_partial : forall sched, c_ub M (after sched) = false ->
    length (c_past M (after sched)) = returned_calls (c_m M (after sched)).
  Proof.
    intros sched U. pose proof (run_inv M n jobs Hn m0 sched _ (pinv_start M n jobs Hn m0) U) as [_ _ _ P]. unfold phase in P. unfold returned_calls.
    destruct (c_m M (after sched)); intuition.
  Qed.
  (** nothing runs between two calls: the memory is the result of the logged
      actions *)
  Theorem C31_memory_partial : forall sched, c_ub M (after sched) = false ->
    c_mem M (after sched) = effect M jobs (length (c_past M (after sched))) (c_log M (after sched)) (effects M jobs 0 (c_past M (after sched)) m0).
  Proof. intros sched U. apply (run_inv M n jobs Hn m0 sched _ (pinv_start M n jobs Hn m0) U). Qed.
  (** no deadlock: under every fair schedule all the calls return and the
      destructor joins all the workers *)
  Theorem C31_no_deadlock_partial : forall sched : nat -> nat,
    (forall t, t < n -> forall i, exists i', i <= i' /\ sched i' = t) ->
    (forall i, c_ub M (after (map sched (seq 0 i))) = false) ->
    exists i, let c := after (map sched (seq 0 i)) in
      c_m M c = MDone /\ length (c_past M c) = length jobs /\ forall t, 1 <= t < n -> w_pc (c_w M c t) = WExit.
  Proof.
    intros sched F D. destruct (fair_done M n jobs Hn m0 sched F D) as [i Q]. exists i. cbv zeta. unfold config_at in Q.
    pose proof (run_inv M n jobs Hn m0 (map sched (seq 0 i)) _ (pinv_start M n jobs Hn m0) (D i)) as [_ _ _ P]. unfold phase in P. rewrite Q in P. destruct P as (P1 & _ & _ & P2). split; auto. split; auto.
    intros t T. apply P2. exact T.
  Qed.

  (** the schedules where the constructor of the pool is not interleaved with
      the workers read no uninitialised pointer *)
  Lemma defined_step t c : pinv M n jobs m0 c -> c_ub M c = false -> (forall k, c_m M c <> MInit k) -> c_ub M (step M n jobs t c) = false.
  Proof.
    intros [_ _ _ P] U NI. unfold step. destruct (Nat.eqb_spec t 0) as [->|T0].
    - unfold main_step. destruct (c_m M c) as [k|k|j k|j k i|j k| |k|]; try (destruct (k <? n)); try (destruct (proc M jobs j k i)); try (destruct (w_slot (c_w M c k))); try (destruct (w_pc (c_w M c k))); simpl; auto.
    - destruct (Nat.ltb_spec t n) as [Ln|_]; auto. assert (IW : is_worker n t) by (unfold is_worker; lia).
      assert (S : w_pc (c_w M c t) = WLoad -> w_slot (c_w M c t) <> Uninit).
      { intros PC. unfold phase in P.
        assert (WA : forall j p, wact M n jobs j t (c_w M c t) p -> w_slot (c_w M c t) <> Uninit).
        { intros j p [(W & _)|[(W & _)|[(W & _)|((W & _) & _)]]]; rewrite W; discriminate. }
        assert (ID : idle (c_w M c t) -> w_slot (c_w M c t) <> Uninit) by (intros [W _]; rewrite W; discriminate).
        assert (LE : leaving (c_w M c t) -> w_slot (c_w M c t) <> Uninit) by (intros [W _]; rewrite W; discriminate).
        destruct (c_m M c) as [k|k|j k|j k i|j k| |k|].
        - destruct P as (_ & _ & _ & _ & P). specialize (P t IW). destruct (t <? k); auto. rewrite P in PC. discriminate.
        - exfalso. eapply NI; eauto.
        - destruct P as (_ & _ & _ & _ & _ & P). specialize (P t IW). destruct (t <? k). eauto. apply ID, P.
        - destruct P as (_ & _ & _ & _ & _ & _ & P). eauto.
        - destruct P as (_ & _ & _ & _ & _ & P & _). eauto.
        - destruct P as (_ & _ & _ & P). eauto.
        - destruct P as (_ & _ & _ & _ & P). apply LE, P; auto.
        - destruct P as (_ & _ & _ & P). apply LE, P; auto. }
      unfold worker_step. destruct (w_pc (c_w M c t)) as [| | |j k i| |]; simpl; auto.
      + destruct (w_slot (c_w M c t)); simpl; auto. exfalso. apply S; auto.
      + destruct (proc M jobs j k i); simpl; auto.
  Qed.
  Definition started (c : config M) : Prop := match c_m M c with MNew k => n <= k | MInit _ => False | _ => True end.
  Lemma started_step t c : pinv M n jobs m0 c -> started c -> started (step M n jobs t c).
  Proof.
    intros [_ _ _ P] St. unfold step. destruct (t =? 0).
    - unfold started, main_step in *. destruct (c_m M c) as [k|k|j k|j k i|j k| |k|] eqn:Q; try contradiction.
      + destruct (Nat.ltb_spec k n); [lia|]. simpl. unfold enter. destruct (0 <? length jobs); auto.
      + destruct (k <? n); simpl; auto.
      + destruct (proc M jobs j k i); simpl; auto.
      + destruct (k <? n); [destruct (w_slot (c_w M c k))|]; simpl; auto. unfold enter. destruct (S j <? length jobs); auto.
      + simpl; auto.
      + destruct (k <? n); [destruct (w_pc (c_w M c k))|]; simpl; rewrite ?Q; auto.
      + rewrite Q; auto.
    - destruct (t <? n); auto. unfold started in *. rewrite worker_main. auto.
  Qed.
  Lemma started_run sched : forall c, pinv M n jobs m0 c -> c_ub M c = false -> started c -> c_ub M (run M n jobs sched c) = false.
  Proof.
    induction sched as [|t l IH]; intros c P U St; auto. change (c_ub M (run M n jobs l (step M n jobs t c)) = false).
    assert (U' : c_ub M (step M n jobs t c) = false). { apply defined_step; auto. intros k Q. unfold started in St. rewrite Q in St. auto. }
    apply IH; auto. apply step_inv; auto. apply started_step; auto.
  Qed.
  Theorem C31_quiet_startup : forall sched, c_ub M (after (repeat 0 (2 * (n - 1)) ++ sched)) = false.
  Proof.
    intros sched. unfold run. rewrite fold_left_app. fold (run M n jobs (repeat 0 (2 * (n - 1))) (start M m0)). 
    assert (G : forall d k c, k + d = n -> 1 <= k -> pinv M n jobs m0 c -> c_ub M c = false -> c_m M c = MNew k ->
      let c' := run M n jobs (repeat 0 (2 * d)) c in pinv M n jobs m0 c' /\ c_ub M c' = false /\ c_m M c' = MNew n).
    { induction d as [|d IH]; intros k c E L P U Q; cbv zeta. { assert (k = n) by lia. subst k. simpl. auto. }
      replace (2 * S d) with (S (S (2 * d))) by lia. cbn [repeat].
      change (run M n jobs (0 :: 0 :: repeat 0 (2 * d)) c) with (run M n jobs (repeat 0 (2 * d)) (main_step M n jobs (main_step M n jobs c))).
      assert (M1 : c_m M (main_step M n jobs c) = MInit k /\ c_ub M (main_step M n jobs c) = false).
      { unfold main_step. rewrite Q. destruct (Nat.ltb_spec k n); [|lia]. simpl. auto. }
      destruct M1 as [M1 U1]. assert (P1 : pinv M n jobs m0 (main_step M n jobs c)) by (apply main_inv; auto).
      assert (M2 : c_m M (main_step M n jobs (main_step M n jobs c)) = MNew (S k) /\ c_ub M (main_step M n jobs (main_step M n jobs c)) = false).
      { unfold main_step at 1 3. rewrite M1. simpl. auto. }
      destruct M2 as [M2 U2]. apply (IH (S k)); auto. lia. apply main_inv; auto. }
    destruct (G (n - 1) 1 (start M m0)) as (P & U & Q); auto. lia. apply pinv_start; auto.
    apply (started_run sched); auto. unfold started. rewrite Q. auto.
  Qed.
End C31.

(** a pool of three threads; two calls with five and two tasks; every task adds
    its number to a list, in two accesses *)
Definition ex_task (k : nat) : task (list (nat * nat)) := [(fun t m => m ++ [(t, k)]); (fun t m => m ++ [(t, k)])].
Definition ex_jobs : list (tasks (list (nat * nat))) := [map ex_task [0; 1; 2; 3; 4]; map ex_task [5; 6]].
Definition ex_sched : list nat := repeat 0 4 ++ flat_map (fun _ => [2; 0; 1; 1]) (seq 0 60).
Notation ex_end := (run (list (nat * nat)) 3 ex_jobs ex_sched (start (list (nat * nat)) [])).
Example ex_finishes : c_ub _ ex_end = false /\ c_m _ ex_end = MDone /\ map (@length _) (c_past _ ex_end) = [10; 4] /\
  map (fun t => w_pc (c_w _ ex_end t)) [1; 2] = [WExit; WExit].
Proof. vm_compute. auto. Qed.
Example ex_once : forall j l, nth_error (c_past _ ex_end) j = Some l -> all_once _ 3 ex_jobs j l.
Proof.
  pose proof (C31_exactly_once_partial (list (nat * nat)) 3 (le_S _ _ (le_S _ _ (le_n 1))) ex_jobs [] ex_sched) as T.
  assert (U : c_ub _ ex_end = false) by (vm_compute; reflexivity).
  exact (T U).
Qed.
Example ex_not_in_order : nth 0 (c_past _ ex_end) [] <> map (fun x => (fst x mod 3, x)) (flat_map (fun k => [(k, 0); (k, 1)]) (seq 0 5)).
Proof. vm_compute. discriminate. Qed.
(** the fair schedule of the two threads, after a quiet construction *)
Example ex_fair : let sched := fun i => i mod 3 in
  (forall t, t < 3 -> forall i, exists i', i <= i' /\ sched i' = t).
Proof.
  intros sched t T i. exists (3 * i + t). split; [lia|]. unfold sched. rewrite Nat.add_comm, Nat.mul_comm, Nat.mod_add, Nat.mod_small; lia.
Qed.

(** Finding: the member [loop], a thread, is declared before [to_process]
    (PoolAware.h:43-45). The thread can read the pointer before the constructor
    has initialised it: undefined behaviour. For every number of workers. *)
Theorem C31_startup_refuted : forall M jobs (m0 : M) n, 2 <= n -> exists sched, c_ub M (run M n jobs sched (start M m0)) = true.
Proof.
  intros M jobs m0 n L. exists [0; 1; 1; 1]. destruct n as [|[|n]]; try lia. reflexivity.
Qed.
(** a pool with one thread has no worker: always defined *)
Theorem C31_single_thread : forall M jobs (m0 : M) sched, c_ub M (run M 1 jobs sched (start M m0)) = false.
Proof. intros M jobs m0 sched. apply (C31_quiet_startup M 1 (le_n 1) jobs m0 sched). Qed.

(** {1 C32} *)
Section C32.
  Context {N : num} (OK : num_ok N).
  Variable H : nat -> func N.
  Hypothesis HB : forall f, built (H f).
  Notation gst := (gst (N:=N)).
  Implicit Types s : gst.
  Local Notation HGd := (built_goods OK H HB).
  Local Notation HSd := (built_solids H HB).

  (** Whole calls of the API: when the tasks of the batches are executed in other
      orders a call returns the same answer, and leaves equal variables,
      factors, evidences, clusters, messages. *)
  Theorem C32_same_answer : forall ops s e order op a s1, reach H no_failed_removal ops s -> env_ok e ->
    (forall t l, Permutation (order t l) l) -> call H e op s = Ret a s1 ->
    exists s2, call H (with_sched e order) op s = Ret a s2 /\ geq s1 s2.
  Proof.
    intros ops s e order op a s1 R E F Q. destruct (reach_abs H HSd no_failed_removal ops s (fun _ _ h => h) R) as [I _].
    pose proof (sim_call OK H e E order F op s I (reach_rest H no_failed_removal ops s R)) as SM. rewrite Q in SM. exact SM.
  Qed.

  (** different messages, none of which is read to compute another one *)
  Definition independent (b : list topo) : Prop :=
    NoDup (map writes b) /\ forall t1 t2, In t1 b -> In t2 b -> t1 <> t2 -> ~ reads t2 (writes t1).
  Lemma independent_indeps b : independent b -> indeps b.
  Proof.
    intros [ND I]. split. apply t_conn_edges; exact ND. 
    assert (G : forall t1 t2, In t1 b -> In t2 b -> t_conn t1 <> t_conn t2 -> ~ In (t_conn t1) (t_depconns t2)).
    { intros t1 t2 I1 I2 NE J. apply (I t1 t2 I1 I2). { intros ->. auto. }
      unfold t_depconns, t_conn in J. apply in_map_iff in J as (d & Ed & Id). injection Ed as E1 E2. unfold reads, writes. simpl. split; auto. rewrite <- E2. apply in_map; auto. }
    intros t1 t2 I1 I2 NE. split; auto.
  Qed.
  (** the messages that a tree propagation computes together are independent *)
  Theorem C32_ready_independent : forall s left ready wait, select s left = Ok (ready, wait) -> NoDup (map writes left) ->
    (forall t c, In t left -> act s (t_rcv t) (t_snd t) = Some c -> c_msg c = None) -> independent ready.
  Proof.
    intros s left ready wait Q ND NL. assert (D : indeps ready).
    { eapply ready_indeps; [exact Q|apply t_conn_edges; exact ND|]. intros t t2 It _ _. unfold msg. simpl. destruct (act s (t_rcv t) (t_snd t)) eqn:A; auto. eapply NL; eauto. }
    destruct D as [D1 D2]. assert (ND' : NoDup (map writes ready)).
    { destruct (select_facts _ _ _ _ Q) as [P _]. apply (Permutation_map writes), Permutation_sym in P. eapply Permutation_NoDup in P; auto. rewrite map_app in P. apply NoDup_app_parts in P. tauto. }
    split; auto. intros t1 t2 I1 I2 NE [Q1 Q2].
    assert (NC : t_conn t1 <> t_conn t2).
    { intros EC. apply NE. clear - D1 I1 I2 EC. induction ready as [|t ts IH]; [destruct I1|]. simpl in D1. inversion D1 as [|? ? Ni ND']; subst. destruct I1 as [->|J1], I2 as [->|J2]; auto; exfalso; apply Ni; [rewrite EC|rewrite <- EC]; apply in_map; auto. }
    destruct (D2 t1 t2 I1 I2 NC) as (_ & X & _). apply X. unfold t_depconns, t_conn. simpl in *. rewrite <- Q2. apply in_map_iff in Q1 as (d & <- & Q1). apply in_map_iff. exists d. auto.
  Qed.

  (** The threads of a pool of [n] threads update the messages of the batches
      [bs], one [parallelFor] for each batch, accesses to the shared memory
      interleaved by [sched] in any way. *)
  Definition fresh_memory s : pmemory := mkMem s (fun _ => mkLoc [] false (VNum n0)) false.
  Section Run.
    Variable n : nat.
    Hypothesis Hn : 1 <= n.
    Variable k : kind.
    Variable bs : list (list topo).
    Hypothesis Hb : forall b, In b bs -> independent b.
    Definition execution (sched : list nat) s : config pmemory :=
      run pmemory n (msg_jobs H k bs) sched (start pmemory (fresh_memory s)).

    Lemma flat_batches : flat_map (batch bs) (seq 0 (length bs)) = concat bs.
    Proof.
      unfold batch. clear. assert (G : forall p, flat_map (fun j => nth j (p ++ bs) []) (seq (length p) (length bs)) = concat bs).
      { induction bs as [|b l IH]; intros p; simpl; auto. rewrite app_nth2, Nat.sub_diag by lia. simpl. f_equal.
        specialize (IH (p ++ [b])). rewrite app_length in IH. simpl in IH. rewrite Nat.add_1_r, <- app_assoc in IH. simpl in IH. auto. }
      apply (G []).
    Qed.
    Lemma execution_end sched s : c_ub pmemory (execution sched s) = false -> c_m pmemory (execution sched s) = MDone ->
      length (c_past pmemory (execution sched s)) = length bs /\ c_mem pmemory (execution sched s) = effects pmemory (msg_jobs H k bs) 0 (c_past pmemory (execution sched s)) (fresh_memory s) /\
      forall i l, nth_error (c_past pmemory (execution sched s)) i = Some l -> interleaving pmemory n (msg_jobs H k bs) i l.
    Proof.
      intros U D. pose proof (run_inv pmemory n (msg_jobs H k bs) Hn (fresh_memory s) sched _ (pinv_start pmemory n _ Hn _) U) as [A _ B C].
      fold (execution sched s) in A, B, C. unfold phase in C. rewrite D in C. destruct C as (C1 & C2 & _). unfold msg_jobs in C1. rewrite map_length in C1. split; auto. split; auto.
      rewrite C2 in B. exact B.
    Qed.
    (** the final state is that of the tasks executed one after the other; no
        task fails *)
    Theorem C32_pool_tree_messages_partial : forall sched s s',
      ofold (fun t s => do (_, s) <- update_message H k t s ;; Ret tt s) (concat bs) s = Ret tt s' ->
      c_ub pmemory (execution sched s) = false -> c_m pmemory (execution sched s) = MDone ->
      geq s' (pm_s (c_mem pmemory (execution sched s))) /\ pm_bad (c_mem pmemory (execution sched s)) = false.
    Proof.
      intros sched s s' Q U D. destruct (execution_end sched s U D) as (L & E & I). rewrite E.
      apply (effects_tree H OK n Hn k bs (fun b Ib => independent_indeps b (Hb b Ib)) _ 0 (fresh_memory s) s'). exact I.
      - intros u. split; auto.
      - rewrite L, flat_batches. exact Q.
    Qed.
    (** and, for the loopy propagation, the same greatest variation *)
    Theorem C32_pool_loopy_messages_partial : forall sched s v' s',
      loopy_tasks H k (concat bs) (VNum n0) s = Ret v' s' ->
      c_ub pmemory (execution sched s) = false -> c_m pmemory (execution sched s) = MDone ->
      geq s' (pm_s (c_mem pmemory (execution sched s))) /\ pm_bad (c_mem pmemory (execution sched s)) = false /\
      fold_left vmax (map (fun t => pl_var (pm_loc (c_mem pmemory (execution sched s)) t)) (seq 1 (n - 1))) (pl_var (pm_loc (c_mem pmemory (execution sched s)) 0)) = v'.
    Proof.
      intros sched s v' s' Q U D. destruct (execution_end sched s U D) as (L & E & I). rewrite E.
      apply (effects_loopy H OK n Hn k bs (fun b Ib => independent_indeps b (Hb b Ib)) _ 0 (fresh_memory s) v' s'). exact I.
      - intros u. split; auto.
      - rewrite L, flat_batches. replace (top_var n (fresh_memory s)) with (VNum (N:=N) n0). exact Q.
        unfold top_var, fresh_memory. simpl. clear. generalize 1 (n - 1). intros a b. revert a. induction b as [|b IH]; intros a; simpl; auto.
        unfold nmax. destruct (nltb n0 n0); apply IH.
    Qed.
  End Run.
End C32.

(** {1 C33} *)
Section C33.
  Context {N : num} (OK : num_ok N).
  Variable H : nat -> func N.
  Hypothesis HB : forall f, built (H f).
  Notation gst := (gst (N:=N)).
  Implicit Types s : gst.
  Local Notation HGd := (built_goods OK H HB).
  Local Notation HSd := (built_solids H HB).

  (** Full property: a call with 0 threads throws and the model can be used after
      it. Proved: when a propagation is needed and no such call was done before,
      it throws; the variables, the factors, the evidences and the last
      propagation are the same. *)
  Theorem C33_zero_threads_partial : forall ops s e op k, reach H no_failed_removal ops s -> g_pool s = Some 1 ->
    query_threads op = Some 0 -> (query_kind op = Some k \/ op = OPropagate (kind_eqb k SUM) 0) -> would_need s k = true ->
    exists s', call H e op s = Thr s' /\ (s' = s \/ s' = set_pool s None).
  Proof.
    intros ops s e op k R P T K W.
    assert (CP : forall A (f : unit -> gst -> out gst A), obind (check_propagation H e k 0 s) f = Thr (set_pool s None)).
    { intros A f. unfold check_propagation. rewrite W. unfold scoped_pool, set_pool_size. rewrite P. auto. }
    assert (CM : forall B (g : B -> answer) v f, omap g (obind (marginal_query H e k v 0 s) f) = Thr (set_pool s None)).
    { intros B g v f. unfold marginal_query. rewrite CP. auto. }
    assert (CM' : forall (g : list N -> answer) v, omap g (marginal_query H e k v 0 s) = Thr (set_pool s None)).
    { intros g v. unfold marginal_query. rewrite CP. auto. }
    assert (RM : forall l, (exists vs, rmap (find_variable s) l = Ok vs) \/ rmap (find_variable s) l = Throw).
    { induction l as [|x l IH]; simpl; eauto. unfold find_variable at 1 3. destruct (find (fun v => String.eqb (vname v) x) (g_vars s)); cbn [rbind]; auto. destruct IH as [(vs & ->)| ->]; simpl; eauto. }
    destruct op; try discriminate T; injection T as ->; destruct K as [K|K]; try discriminate K; try (injection K as <-).
    - exists (set_pool s None). split; [apply CM'|auto].
    - simpl. unfold get_marginal_name, find_variable, get_marginal. destruct (find _ _) as [v|]; simpl; [|eauto]. exists (set_pool s None). split; [apply CM'|auto].
    - exists (set_pool s None). split; [apply CM|auto].
    - simpl. unfold get_map_name, find_variable, get_map. destruct (find _ _) as [v|]; simpl; [|eauto]. exists (set_pool s None). split; [apply CM|auto].
    - exists (set_pool s None). split; [|auto]. simpl. unfold get_hidden_map. rewrite CP. auto.
    - exists (set_pool s None). split; [|auto]. simpl. unfold get_joint. rewrite CP. auto.
    - simpl. unfold get_joint_names. destruct (RM ns) as [(vs & ->)| ->]; simpl; [|eauto]. destruct (group_ctor_total vs) as [(g & ->)| ->]; simpl; [|eauto].
      exists (set_pool s None). split; [|auto]. unfold get_joint. rewrite CP. auto.
    - exists (set_pool s None). split; [|auto]. simpl. unfold scoped_pool, set_pool_size. rewrite P. auto.
  Qed.

  (** Finding: the pool has been destroyed, and the next call that needs a
      propagation uses it. Whatever the model, the variable and the number of
      threads. *)
  Theorem C33_unusable : forall ops s e v, reach H no_failed_removal ops s -> g_pool s = Some 1 -> would_need s SUM = true ->
    exists s', call H e (OMarginal v 0) s = Thr s' /\ forall e' w n, call H e' (OMarginal w n) s' = Undef.
  Proof.
    intros ops s e v R P W. exists (set_pool s None). simpl. unfold get_marginal, marginal_query, check_propagation. rewrite W. unfold scoped_pool, set_pool_size. rewrite P. split; auto.
    intros e' w n. change (would_need (set_pool s None) SUM) with (would_need s SUM). rewrite W. auto.
  Qed.
End C33.

(** {1 Examples} *)
Lemma reach_weaken {N : num} (H : nat -> func N) (G G' : spec -> gop -> Prop) ops s : (forall A op, G A op -> G' A op) -> reach H G ops s -> reach H G' ops s.
Proof. intros I R. induction R; [constructor|eapply R_ret; eauto|eapply R_thr; eauto]. Qed.
Example tale_reach' : reach bH no_failed_removal tale (runs bH tale).
Proof. eapply reach_weaken; [|exact tale_reach]. intros A op [Q _]. exact Q. Qed.
Example loop_tale_reach' : reach bH no_failed_removal loop_tale (runs bH loop_tale).
Proof. eapply reach_weaken; [|exact loop_tale_reach]. intros A op [Q _]. exact Q. Qed.

Theorem C33_usable_refuted : exists ops s v s', reach bH no_failed_removal ops s /\ call bH env_id (OMarginal v 0) s = Thr s' /\
  call bH env_id (OMarginal v 1) s' = Undef.
Proof.
  destruct (C33_unusable bH tale (runs bH tale) env_id exA tale_reach') as (s' & A & B). vm_compute; reflexivity. vm_compute; reflexivity.
  exists tale, (runs bH tale), exA, s'. split; [exact tale_reach'|]. split. exact A. apply B.
Qed.
(** Finding: when no propagation is needed, 0 threads are accepted *)
Definition returns {S A} (o : out S A) : bool := match o with Ret _ _ => true | _ => false end.
Theorem C33_zero_threads_refuted : exists ops s v, reach bH no_failed_removal ops s /\ returns (call bH env_id (OMarginal v 0) s) = true.
Proof. exists loop_tale, (runs bH loop_tale), exA. split. exact loop_tale_reach'. vm_compute. reflexivity. Qed.
(** a propagation on a tree and on a ring of four variables *)
Example tale_propagates : would_need (runs bH tale) SUM = true /\ returns (propagate bH env_rev SUM (runs bH tale)) = true.
Proof. split; vm_compute; reflexivity. Qed.
Example loop_propagates : would_need (runs bH loop_tale) MAP = true /\ returns (propagate bH env_rev MAP (runs bH loop_tale)) = true.
Proof. split; vm_compute; reflexivity. Qed.
(** the messages of a ring of three variables with a fourth attached: eight *)
Definition ring_topo : list topo := match g_cl (runs bH loop_tale) with cl :: _ => match cl_topo cl with Some ts => ts | None => [] end | [] => [] end.
Definition ring_batches : list (list topo) := match loopy_order 3 ring_topo with Ok bs => bs | _ => [] end.
Example ring_messages : map writes ring_topo = [(3, 1); (0, 1); (0, 2); (1, 0); (1, 2); (1, 3); (2, 0); (2, 1)].
Proof. vm_compute. reflexivity. Qed.
Example ring_different : NoDup (map writes ring_topo).
Proof. rewrite ring_messages. repeat (constructor; [simpl; intuition discriminate|]). constructor. Qed.
Example ring_batches_independent : forall b, In b ring_batches -> independent b.
Proof.
  destruct (C30_batches (N:=QcNum) bH 3 ring_topo ring_different) as (bs & E & P & I). lia.
  assert (Q : ring_batches = bs) by (unfold ring_batches; rewrite E; reflexivity). intros b Ib. rewrite Q in Ib. split.
  - clear - Ib P. pose proof ring_different as ND. apply (Permutation_map writes), Permutation_sym in P. eapply Permutation_NoDup in ND; [|exact P].
    apply in_split in Ib as (l1 & l2 & ->). rewrite concat_app, !map_app in ND. simpl in ND. rewrite map_app in ND. apply NoDup_app_parts in ND. destruct ND as [_ ND]. apply NoDup_app_parts in ND. tauto.
  - intros t1 t2 I1 I2 NE. apply (I b Ib t1 t2 I1 I2 NE).
Qed.
Example ring_batches_messages : map (map writes) ring_batches =
  [[(3, 1); (0, 1); (0, 2)]; [(1, 0); (1, 2); (1, 3)]; [(2, 0); (2, 1)]].
Proof. vm_compute. reflexivity. Qed.
(** the messages of the ring updated once by three threads *)
Definition ring_sched : list nat := repeat 0 4 ++ flat_map (fun _ => [2; 0; 1; 1]) (seq 0 60).
Example ring_updated : returns (loopy_tasks bH SUM (concat ring_batches) (VNum n0) (runs bH loop_tale)) = true.
Proof. vm_compute. reflexivity. Qed.
Example ring_finishes : let c := execution bH 3 SUM ring_batches ring_sched (runs bH loop_tale) in
  c_ub _ c = false /\ c_m _ c = MDone /\ map (@length _) (c_past _ c) = [5; 9; 4].
Proof. cbv zeta. split; [vm_compute; reflexivity|]. split; vm_compute; reflexivity. Qed.

Print Assumptions C29_calls_terminate.
Print Assumptions C29_messages_computed.
Print Assumptions C30_batches.
Print Assumptions C30_one_thread.
Print Assumptions C30_cluster_messages.
Print Assumptions C31_exactly_once_partial.
Print Assumptions C31_returns_after_all_partial.
Print Assumptions C31_memory_partial.
Print Assumptions C31_no_deadlock_partial.
Print Assumptions C31_quiet_startup.
Print Assumptions C31_startup_refuted.
Print Assumptions C31_single_thread.
Print Assumptions C32_same_answer.
Print Assumptions C32_ready_independent.
Print Assumptions C32_pool_tree_messages_partial.
Print Assumptions C32_pool_loopy_messages_partial.
Print Assumptions C33_zero_threads_partial.
Print Assumptions C33_unusable.
Print Assumptions C33_usable_refuted.
Print Assumptions C33_zero_threads_refuted.
