(** Properties C34 - C36: Gibbs samples; C32 for the sampling *)
From Coq Require Import String List Arith Bool Lia Permutation Relations QArith Qcanon Field.
From Verif Require Import Res Num Categoric Combs Func FuncProofs GroupProofs FactorProofs FactorApi Special SpecialProofs
  Graph GraphLemmas Clusters Belief Query GraphInv EvidInv BeliefInv BigOp Tree Cycle BPStep BPRun GraphSpec Hist
  P_Categoric P_Factor Demo P_Graph BeliefSpec Sums Exact BeliefHist Queries Rebuild BeliefDemo P_Belief
  Pool PoolProofs PoolComm P_Pool Gibbs GibbsSpec GibbsProofs GibbsChain GibbsPool.
Import ListNotations.
Open Scope nat_scope.

(** {1 C35} *)
Section C35.
  Context {N : num} (OK : num_ok N).
  Add Field NFieldC35 : (ok_field N OK).

  (** sum of the first [k] probabilities *)
  Definition cumulated (p : list N) (k : nat) : N := sumL (fun x => x) (firstn k p).
  Lemma cumulated_seq p k : k <= length p -> cumulated p k = sumL (fun i => nth i p n0) (seq 0 k).
  Proof.
    intros L. unfold cumulated. rewrite <- (sumL_map (fun x => x) (fun i => nth i p n0)). f_equal. revert p L. induction k as [|k IH]; intros [|x p] L; simpl in *; auto; try lia. 
    f_equal. rewrite <- seq_shift, map_map. apply IH. lia.
  Qed.
  Lemma loop_first p : forall k c x, match sample_loop p k c x with
    | Some j => exists i, j = k + i /\ i < length p /\ (forall m, m < i -> (c + cumulated p (S m) < x)%num) /\ (x <= c + cumulated p (S i))%num
    | None => forall m, m < length p -> (c + cumulated p (S m) < x)%num
    end.
  Proof.
    induction p as [|y p IH]; intros k c x; simpl. { intros m L. lia. }
    assert (A : forall m, (c + cumulated (y :: p) (S m))%num = (c + y + cumulated p m)%num). { intros m. unfold cumulated. simpl. ring. }
    assert (Z : cumulated p 0 = n0) by reflexivity. assert (A0 : (c + cumulated (y :: p) 1)%num = (c + y)%num) by (rewrite A, Z; ring).
    destruct (nltb (c + y)%num x) eqn:E.
    - specialize (IH (S k) (c + y)%num x). destruct (sample_loop p (S k) (c + y)%num x) as [j|].
      + destruct IH as (i & -> & Li & B & T). exists (S i). splits; [lia|lia| |].
        * intros [|m] Lm. rewrite A0. auto. rewrite A. apply B. lia.
        * rewrite A. auto.
      + intros [|m] Lm. rewrite A0; auto. rewrite A. apply IH. lia.
    - exists 0. splits; [lia|lia| |]. intros m Lm; lia. rewrite A0. auto.
  Qed.
  (** the first index whose cumulated probability is at least the number drawn;
      the last one if there is none *)
  Theorem C35_first_index : forall (p : list N) x k, p <> [] ->
    sample_discrete p x = k <->
    k < length p /\ (forall j, j < k -> (cumulated p (S j) < x)%num) /\
    ((x <= cumulated p (S k))%num \/ (k = length p - 1 /\ (cumulated p (length p) < x)%num)).
  Proof.
    intros p x k NE. assert (L0 : 0 < length p) by (destruct p; [congruence|simpl; lia]).
    assert (Z : forall y, (n0 + y)%num = y) by (intros; apply (nadd_0_l OK)).
    pose proof (loop_first p 0 n0 x) as S. unfold sample_discrete. destruct (sample_loop p 0 n0 x) as [j|].
    - destruct S as (i & -> & Li & B & T). simpl. rewrite Z in T. split.
      + intros <-. splits; auto. intros m Lm. specialize (B m Lm). rewrite Z in B. auto.
      + intros (Lk & Bk & Tk). destruct (Nat.lt_trichotomy i k) as [C|[C|C]]; auto.
        * specialize (Bk i C). congruence.
        * specialize (B k C). rewrite Z in B. destruct Tk as [Tk|[-> Tk]]; [congruence|lia].
    - split.
      + intros <-. splits; [lia| |].
        * intros m Lm. specialize (S m ltac:(lia)). rewrite Z in S. auto.
        * right. split; auto. specialize (S (length p - 1) ltac:(lia)). rewrite Z in S. replace (Datatypes.S (length p - 1)) with (length p) in S by lia. auto.
      + intros (Lk & Bk & [Tk|[-> _]]); auto. specialize (S k Lk). rewrite Z in S. congruence.
  Qed.
  Lemma cumulated_S p k : k < length p -> cumulated p (S k) = (cumulated p k + nth k p n0)%num.
  Proof. intros L. rewrite !cumulated_seq by lia. apply (sumL_seq_S OK). Qed.
  Lemma cumulated_mono p j k : Forall (fun x => (n0 <= x)%num) p -> j <= k -> k <= length p -> (cumulated p j <= cumulated p k)%num.
  Proof.
    intros F L1 L2. rewrite !cumulated_seq by lia. apply (sumL_seq_mono OK); auto. intros i _. destruct (Nat.lt_ge_cases i (length p)) as [L|L].
    rewrite Forall_forall in F. apply F, nth_In. auto. rewrite nth_overflow by auto. apply (nle_refl OK).
  Qed.
  (** the index [k] is drawn exactly by the numbers of an interval whose length is
      its probability *)
  Theorem C35_interval : forall (p : list N) x k, Forall (fun y => (n0 <= y)%num) p -> (n0 < x)%num -> (x <= cumulated p (length p))%num ->
    sample_discrete p x = k <-> k < length p /\ (cumulated p k < x)%num /\ (x <= cumulated p k + nth k p n0)%num.
  Proof.
    intros p x k F P T. assert (NE : p <> []). { intros ->. unfold cumulated in T. simpl in T. congruence. }
    rewrite C35_first_index by auto. split.
    - intros (L & B & U). split; auto. split.
      + destruct k as [|k]. exact P. apply B. lia.
      + rewrite <- cumulated_S by auto. destruct U as [U|[-> U]]; auto. congruence.
    - intros (L & B & U). split; auto. split.
      + intros j Lj. apply (nle_lt_trans OK _ (cumulated p k)); auto. apply cumulated_mono; auto. lia.
      + left. rewrite cumulated_S; auto.
  Qed.
  (** Full property: an index with a null probability is never drawn. Proved for
      the numbers drawn that are not 0 ([C35_null_refuted] below). *)
  Theorem C35_not_null_partial : forall (p : list N) x, Forall (fun y => (n0 <= y)%num) p -> (n0 < x)%num -> (x <= cumulated p (length p))%num ->
    (n0 < nth (sample_discrete p x) p n0)%num.
  Proof.
    intros p x F P T. destruct (proj1 (C35_interval p x _ F P T) eq_refl) as (L & B & U).
    assert (NN : (n0 <= nth (sample_discrete p x) p n0)%num) by (rewrite Forall_forall in F; apply F, nth_In; auto).
    destruct (neqb (nth (sample_discrete p x) p n0) n0) eqn:E.
    - apply (ok_eqb N OK) in E. rewrite E in U. replace (cumulated p (sample_discrete p x) + n0)%num with (cumulated p (sample_discrete p x)) in U by ring. congruence.
    - apply (nle_lt_eq OK) in NN as [NN|NN]; auto. apply (neqb_false OK) in E. congruence.
  Qed.
End C35.
Definition dist : list QcNum := [Q2Qc (1#4); 0%Qc; Q2Qc (1#2); Q2Qc (1#4)].
Definition third : QcNum := Q2Qc (1#3).
Example dist_ok : Forall (fun y => (n0 <= y)%num) dist /\ (n0 < third)%num /\ (third <= cumulated dist (length dist))%num /\ sample_discrete dist third = 2.
Proof. repeat split; try (repeat constructor; vm_compute; reflexivity). Qed.
(** Finding: the number 0 can be drawn, and gives the first value also when it is
    impossible *)
Theorem C35_null_refuted : exists (p : list QcNum) x, Forall (fun y => (n0 <= y)%num) p /\ sumL (fun y => y) p = n1 /\ (n0 <= x)%num /\ (x < n1)%num /\
  nth (sample_discrete p x) p n1 = n0.
Proof.
  exists [n0; n1], n0. splits; try (vm_compute; reflexivity). repeat constructor; vm_compute; reflexivity.
Qed.

Section Gibbs.
  Context {N : num} (OK : num_ok N).
  Variable H : nat -> func N.
  Hypothesis HB : forall f, built (H f).
  Notation gst := (gst (N:=N)).
  Implicit Types s : gst.
  Local Notation HGd := (built_goods OK H HB).
  Local Notation HSd := (built_solids H HB).
  Notation model := (sp_run (fvars H)).
  Add Field NFieldC36 : (ok_field N OK).

  (** {1 C34} *)

  (** For every sequence of numbers drawn by the engines. [g_pool s = Some 1]: no
      call with 0 threads has been done before (C33). *)
  Theorem C34_samples : forall ops s draw e ceil10 c threads, reach H no_failed_removal ops s -> g_pool s = Some 1 ->
    env_ok e -> 1 <= threads -> positive (weight H (model ops)) (model ops) ->
    exists samples s', make_samples H draw e ceil10 c threads s = Ret samples s' /\
      length samples = x_samples c /\ Forall (sample_ok (model ops)) samples /\
      abs s' (model ops) /\ g_pool s' = Some 1.
  Proof.
    intros ops s draw e ceil10 c threads R PO E L P. destruct (reach_abs H HSd no_failed_removal ops s (fun _ _ h => h) R) as [[C CS] AB].
    destruct (make_samples_ok OK H HGd s C _ AB draw CS P e ceil10 c threads E PO L) as (out & s' & v & Q & K & PO' & Ln & F & _).
    exists out, s'. splits; auto. eapply keeps_abs; eauto.
  Qed.

  (** {1 C36} *)

  (** The samples are those of a Gibbs chain: all the hidden variables are drawn
      again, one at a time, each from its conditional probability given the
      values that the others have at that moment; samples every [delta] sweeps
      after the transient. *)
  Theorem C36_chain : forall ops s draw e ceil10 c threads, reach H no_failed_removal ops s -> g_pool s = Some 1 ->
    env_ok e -> 1 <= threads -> positive (weight H (model ops)) (model ops) ->
    exists samples s' visit, make_samples H draw e ceil10 c threads s = Ret samples s' /\
      Permutation (map fst visit) (hidden_positions (model ops)) /\ Forall (fun p => snd p < threads) visit /\
      let delta := Nat.max 1 (match x_delta c with Some d => d | None => ceil10 (x_samples c) end) in
      let burn := match x_transient c with Some b => b | None => 10 * delta end in
      gibbs_chain H draw (model ops) visit burn delta samples.
  Proof.
    intros ops s draw e ceil10 c threads R PO E L P. destruct (reach_abs H HSd no_failed_removal ops s (fun _ _ h => h) R) as [[C CS] AB].
    destruct (make_samples_ok OK H HGd s C _ AB draw CS P e ceil10 c threads E PO L) as (out & s' & v & Q & K & PO' & Ln & F & PV & TV & G).
    exists out, s', v. splits; auto.
  Qed.
  (** the conditional probability of the chain is the weight of the whole model
      normalized on the values of the variable *)
  Theorem C36_conditional : forall ops s cmb a v, reach H no_failed_removal ops s -> nth_error (sp_vars (model ops)) a = Some v ->
    let w := fun k => weight H (model ops) (combine (sp_vars (model ops)) (replace cmb a k)) in
    sumL w (seq 0 (vsize v)) <> n0 ->
    sumL (level H (model ops) cmb a v) (seq 0 (vsize v)) <> n0 /\
    forall k, conditional H (model ops) cmb a v k = (w k / sumL w (seq 0 (vsize v)))%num.
  Proof.
    intros ops s cmb a v R Ha w Z. destruct (reach_abs H HSd no_failed_removal ops s (fun _ _ h => h) R) as [[C CS] AB].
    apply (conditional_full OK H); auto. rewrite <- (ab_vars _ _ AB). apply (vars_NoDup H s C).
  Qed.
  (** it is a distribution, and the number drawn determines the value *)
  Theorem C36_distribution : forall ops s cmb a v, reach H no_failed_removal ops s -> sample_ok (model ops) cmb ->
    nth_error (sp_vars (model ops)) a = Some v -> sp_evidence (model ops) v = None ->
    sumL (level H (model ops) cmb a v) (seq 0 (vsize v)) <> n0 ->
    (forall k, k < vsize v -> (n0 <= conditional H (model ops) cmb a v k)%num) /\
    sumL (conditional H (model ops) cmb a v) (seq 0 (vsize v)) = n1 /\
    forall x j k, selects (vsize v) (conditional H (model ops) cmb a v) x j -> selects (vsize v) (conditional H (model ops) cmb a v) x k -> j = k.
  Proof.
    intros ops s cmb a v R SO Ha Ev Z. destruct (reach_abs H HSd no_failed_removal ops s (fun _ _ h => h) R) as [[C CS] AB].
    apply (good_comb_spec H s C _ AB) in SO as [IR OB]. rewrite <- (ab_vars _ _ AB) in Ha.
    assert (Ev' : g_ev s a = None) by (rewrite <- (ev_at s _ AB a v Ha); auto).
    assert (NN : forall k, k < vsize v -> (n0 <= level H (model ops) cmb a v k)%num).
    { intros k Lk. rewrite (level_local OK H HGd s C _ AB) by auto. apply (local_nonneg OK H HGd s C); auto. }
    assert (SP : (n0 < sumL (level H (model ops) cmb a v) (seq 0 (vsize v)))%num).
    { assert (L : (n0 <= sumL (level H (model ops) cmb a v) (seq 0 (vsize v)))%num) by (apply (sumL_nonneg OK); intros k I; apply in_seq in I; apply NN; lia).
      apply (nle_lt_eq OK) in L as [L|L]; [auto|congruence]. }
    assert (CN : forall k, k < vsize v -> (n0 <= conditional H (model ops) cmb a v k)%num) by (intros k Lk; unfold conditional; apply (ndiv_nonneg OK); auto).
    split; auto. split.
    - unfold conditional. rewrite (sumL_div OK) by auto. field. auto.
    - intros x j k. apply (selects_fun OK). auto.
  Qed.

  (** {1 C32} *)

  (** the batches of the sampling tasks, on a pool of several threads *)
  Definition independent_nodes (b : list (snode (N:=N))) : Prop := ForallOrdPairs sindep b.
  Theorem C32_sampling_batches : forall threads (nodes : list (snode (N:=N))), NoDup (map sn_pos nodes) -> 2 <= threads ->
    exists bs, gibbs_order threads nodes = Ok bs /\ Permutation (concat bs) nodes /\ forall b, In b bs -> independent_nodes b.
  Proof.
    intros threads nodes ND L. destruct (gibbs_order_ok threads nodes) as (bs & E & P). exists bs. split; auto. split; auto. intros b Ib.
    unfold gibbs_order in E. destruct (Nat.eqb_spec threads 1); [lia|]. pose proof (gibbs_batches_indep _ _ _ E b Ib) as F.
    assert (NDb : NoDup (map sn_pos b)).
    { apply (Permutation_map sn_pos), Permutation_sym in P. eapply Permutation_NoDup in P; [|exact ND]. apply in_split in Ib as (l1 & l2 & ->).
      rewrite concat_app, !map_app in P. simpl in P. rewrite map_app in P. apply NoDup_app_parts in P as [_ P]. apply NoDup_app_parts in P. tauto. }
    clear - F NDb. unfold independent_nodes. induction F as [|x l A O IH]; constructor.
    - inversion NDb as [|? ? NI NDl]; subst. rewrite Forall_forall in A |- *. intros y Iy. split; [|apply A; auto]. intros Q. apply NI. rewrite Q. apply in_map; auto.
    - inversion NDb; auto.
  Qed.

  Lemma firstn_nth {T} (l : list T) : forall k i x, nth_error (firstn k l) i = Some x -> nth_error l i = Some x.
  Proof. induction l as [|y l IH]; intros [|k] [|i] x Q; simpl in *; try discriminate; eauto. Qed.

  Section Run.
    Variable draw : nat -> nat -> N.
    Variable n : nat.
    Hypothesis Hn : 1 <= n.
    Variable bs : list (list (snode (N:=N))).
    Hypothesis Hb : forall b, In b bs -> independent_nodes b.
    Variable total : nat.
    Definition first_memory (comb : list nat) : smemory := mkSM comb (fun _ => mkSL [] 0) false.
    (** the threads of the pool execute [total] sweeps, one [parallelFor] for each
        batch *)
    Definition sampling (sched : list nat) (comb : list nat) : config smemory :=
      run smemory n (gen_jobs smemory snode (gibbs_code H draw) (concat (repeat bs total))) sched (start smemory (first_memory comb)).
    (** the memory after the first [k] calls of [parallelFor] *)
    Definition memory_after (k : nat) (sched : list nat) (comb : list nat) : smemory :=
      effects smemory (gen_jobs smemory snode (gibbs_code H draw) (concat (repeat bs total))) 0 (firstn k (c_past smemory (sampling sched comb))) (first_memory comb).

    (** for every interleaving of the accesses of the threads: the values after
        [k] sweeps are those of the tasks executed one after the other *)
    Theorem C32_sampling_schedules_partial : forall sched comb k st,
      c_ub smemory (sampling sched comb) = false -> k <= total -> k * length bs <= length (c_past smemory (sampling sched comb)) ->
      evolve H draw n bs k (mkSS comb (fun _ => 0)) = Ok st ->
      let m := memory_after (k * length bs) sched comb in
      sm_comb m = ss_comb st /\ (forall t, sl_cnt (sm_loc m t) = ss_cnt st t) /\ sm_bad m = false.
    Proof.
      intros sched comb k st U Lk Lp E m. pose proof (run_inv smemory n _ Hn (first_memory comb) sched _ (pinv_start smemory n _ Hn _) U) as [I _ _ _]. fold (sampling sched comb) in I.
      assert (X : holds st m).
      { unfold m, memory_after. eapply (gibbs_effects H draw n Hn (concat (repeat bs total))).
        - intros b Ib. apply in_concat in Ib as (l & Il & Ib). apply repeat_spec in Il. subst l. apply Hb; auto.
        - intros i l Hi. apply I. eapply firstn_nth; exact Hi.
        - instantiate (1 := mkSS comb (fun _ => 0)). split; auto.
        - rewrite firstn_length_le by auto. rewrite evolve_fold in E. destruct (repeat_le bs k total Lk) as [r Er]. rewrite Er. rewrite <- concat_repeat_length. unfold gen_batch. rewrite nth_prefix. exact E. }
      destruct X as (A & B & C). splits; auto. intros t. rewrite B. auto.
    Qed.
    (** hence the samples *)
    Theorem C32_samples_schedules_partial : forall sched comb burn delta len st out i sample,
      evolve H draw n bs burn (mkSS comb (fun _ => 0)) = Ok st -> collect H draw n bs delta len st = Ok out ->
      nth_error out i = Some sample ->
      c_ub smemory (sampling sched comb) = false -> burn + i * delta <= total -> (burn + i * delta) * length bs <= length (c_past smemory (sampling sched comb)) ->
      sm_comb (memory_after ((burn + i * delta) * length bs) sched comb) = sample.
    Proof.
      intros sched comb burn delta len st out i sample E1 E2 Hi U Lt Lp. destruct (collect_nth H draw n bs delta len st out i sample E2 Hi) as (st' & E3 & ->).
      eapply C32_sampling_schedules_partial; eauto. rewrite evolve_fold, repeat_app, concat_app, rfold_app, <- !evolve_fold, E1. cbn [rbind]. rewrite <- evolve_fold. exact E3.
    Qed.
  End Run.
End Gibbs.

(** {1 Examples} *)
(** the numbers drawn *)
Definition draws (t i : nat) : QcNum := nth ((3 * i + 2 * t) mod 5) [q 1 10; q 7 10; q 2 5; q 19 20; q 3 10] (q 1 2).
Definition context : sctx := mkCtx 4 (Some 1) (Some 2).
Definition drawn (o : out (gst (N:=QcNum)) (list (list nat))) : list (list nat) := match o with Ret l _ => l | _ => [] end.
Example ring_samples : drawn (make_samples bH draws env_rev (fun n => n) context 3 (runs bH loop_tale)) = [[0; 1; 0; 0]; [0; 0; 1; 1]; [1; 0; 0; 1]; [0; 0; 1; 1]].
Proof. vm_compute. reflexivity. Qed.
Example ring_positive : positive (weight bH (bmodel loop_tale)) (bmodel loop_tale).
Proof. apply positiveb_ok. vm_compute. reflexivity. Qed.
Example ring_pool : g_pool (runs bH loop_tale) = Some 1. Proof. vm_compute. reflexivity. Qed.
Example ring_chain : exists samples s' visit, make_samples bH draws env_rev (fun n => n) context 3 (runs bH loop_tale) = Ret samples s' /\
  Permutation (map fst visit) (hidden_positions (bmodel loop_tale)) /\ Forall (fun p => snd p < 3) visit /\
  gibbs_chain bH draws (bmodel loop_tale) visit 2 1 samples.
Proof.
  exact (C36_chain QcNum_ok bH bH_built loop_tale (runs bH loop_tale) draws env_rev (fun n => n) context 3 loop_tale_reach' ring_pool env_rev_ok (le_S _ _ (le_S _ _ (le_n 1))) ring_positive).
Qed.
Example ring_hidden : hidden_positions (bmodel loop_tale) = [0; 1; 2; 3]. Proof. vm_compute. reflexivity. Qed.
(** with an observed variable: its value never changes *)
Example tale_samples : drawn (make_samples bH draws env_rev (fun n => n) context 1 (runs bH tale)) = [[0; 0; 1; 1]; [0; 0; 1; 1]; [1; 0; 1; 1]; [0; 0; 1; 1]].
Proof. vm_compute. reflexivity. Qed.
Example tale_pool : g_pool (runs bH tale) = Some 1. Proof. vm_compute. reflexivity. Qed.
Example tale_well_formed : exists samples s', make_samples bH draws env_rev (fun n => n) context 1 (runs bH tale) = Ret samples s' /\
  length samples = 4 /\ Forall (sample_ok (bmodel tale)) samples /\ abs s' (bmodel tale) /\ g_pool s' = Some 1.
Proof.
  exact (C34_samples QcNum_ok bH bH_built tale (runs bH tale) draws env_rev (fun n => n) context 1 tale_reach' tale_pool env_rev_ok (le_n 1) tale_positive).
Qed.
(** a conditional distribution *)
Example ring_conditional : neqb (sumL (fun k => weight bH (bmodel loop_tale) (combine (sp_vars (bmodel loop_tale)) (replace [0; 1; 0; 0] 1 k))) (seq 0 2)) n0 = false.
Proof. vm_compute. reflexivity. Qed.
(** the sampling of the ring on a pool of three threads *)
Definition ring_nodes : list snode := match make_nodes bH env_rev (runs bH loop_tale) with Ret l _ => l | _ => [] end.
Definition ring_sampling : list (list snode) := match gibbs_order 3 ring_nodes with Ok bs => bs | _ => [] end.
Example ring_sampling_batches : map (map sn_pos) ring_sampling = [[2; 3]; [1]; [0]].
Proof. vm_compute. reflexivity. Qed.
Example ring_nodes_pos : map sn_pos ring_nodes = [2; 1; 0; 3]. Proof. vm_compute. reflexivity. Qed.
Example ring_sampling_independent : forall b, In b ring_sampling -> independent_nodes b.
Proof.
  destruct (C32_sampling_batches 3 ring_nodes) as (bs & E & P & I). { rewrite ring_nodes_pos. repeat constructor; simpl; intuition discriminate. } lia.
  assert (Q : ring_sampling = bs) by (unfold ring_sampling; rewrite E; reflexivity). intros b Ib. rewrite Q in Ib. apply I; auto.
Qed.
(** three sweeps; the threads of the pool move in an irregular order *)
Notation ring_threads := (sampling bH draws 3 ring_sampling 3 (repeat 0 4 ++ flat_map (fun _ => [2; 0; 1; 1; 2]) (seq 0 200)) [0; 0; 0; 0]).
Example ring_threads_done : c_ub _ ring_threads = false /\ c_m _ ring_threads = MDone /\ length (c_past _ ring_threads) = 9.
Proof. split; [vm_compute; reflexivity|]. split; vm_compute; reflexivity. Qed.
Example ring_threads_values : sm_comb (c_mem _ ring_threads) = match evolve bH draws 3 ring_sampling 3 (mkSS [0; 0; 0; 0] (fun _ => 0)) with Ok st => ss_comb st | _ => [] end.
Proof. vm_compute. reflexivity. Qed.

Print Assumptions C35_first_index.
Print Assumptions C35_interval.
Print Assumptions C35_not_null_partial.
Print Assumptions C35_null_refuted.
Print Assumptions C34_samples.
Print Assumptions C36_chain.
Print Assumptions C36_conditional.
Print Assumptions C36_distribution.
Print Assumptions C32_sampling_batches.
Print Assumptions C32_sampling_schedules_partial.
Print Assumptions C32_samples_schedules_partial.
