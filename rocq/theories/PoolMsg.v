(** The updates of the messages as tasks of the pool: every interleaving of the
    accesses of independent tasks gives the state of the sequential execution *)
From Coq Require Import String List Arith Bool Lia Permutation.
From Verif Require Import Res Num Categoric Func Special Graph GraphLemmas Belief BPRun Indep Pool PoolProofs PoolComm.
Import ListNotations.
Open Scope nat_scope.

Section PoolMsg.
  Context {N : num}.
  Variable H : nat -> func N.
  Notation gst := (gst (N:=N)).
  Notation vari := (vari (N:=N)).
  Implicit Types s : gst.

  (** what a thread keeps for itself while it executes [updateMessage]
      (Types.cpp:77-110): the messages of the dependencies read so far, whether
      one of them was null; and its element of [variations]
      (BaselineLoopyPropagator.cpp:80-81) *)
  Record plocal := mkLoc { pl_msgs : list (func N); pl_skip : bool; pl_var : vari }.
  (** the memory shared by the tasks; [pm_bad]: a task threw or did something
      undefined *)
  Record pmemory := mkMem { pm_s : gst; pm_loc : nat -> plocal; pm_bad : bool }.

  (** the assignment of a message (Types.cpp:100-104) *)
  Definition write_msg (p : nat * nat) (m : func N) s : gst :=
    match set_act_msg s (fst p) (snd p) (Some m) with Ret _ s' => s' | _ => s end.
  (** an access of a thread: something is read and computed, the private data
      change, a message may be written *)
  Definition access := gst -> plocal -> plocal * option (func N) * bool.
  Definition perform (c : access) (p : nat * nat) : nat -> pmemory -> pmemory := fun tid m =>
    match c (pm_s m) (pm_loc m tid) with
    | (l, w, b) =>
        mkMem (match w with Some g => write_msg p g (pm_s m) | None => pm_s m end)
              (fupd (pm_loc m) tid l) (pm_bad m || b)
    end.

  (** the message of a dependency is read (Types.cpp:81-89) *)
  Definition read_dep (t : topo) (d : nat * nat) : access := fun s l =>
    if pl_skip l then (l, None, false)
    else match deref s (t_snd t) (fst d) (snd d) with
         | Ok c => match c_msg c with
                   | Some g => (mkLoc (pl_msgs l ++ [g]) false (pl_var l), None, false)
                   | None => (mkLoc [] true (pl_var l), None, false)
                   end
         | _ => (l, None, true)
         end.
  (** the new message and its variation, from the messages read *)
  Definition new_msg (k : kind) (t : topo) s (ms : list (func N)) : res (func N * vari) :=
    match nd_merged (g_node s (t_snd t)) with
    | None => Throw
    | Some mu =>
        let* mg := merged_unaries (Some mu :: map Some ms) in
        let* c := deref s (t_rcv t) (t_snd t) (t_uid t) in
        let* m := message k mg (H (c_fac c)) in
        match c_msg c with
        | None => Ok (m, VMax)
        | Some old => let* d := diff old m in Ok (m, VNum d)
        end
    end.
  (** the end of [updateMessage] (Types.cpp:90-110) and of the task *)
  Definition finish (k : kind) (t : topo) : access := fun s l =>
    if pl_skip l then (mkLoc [] false (pl_var l), None, false)
    else match new_msg k t s (pl_msgs l) with
         | Ok (g, v) => (mkLoc [] false (vmax (pl_var l) v), Some g, false)
         | _ => (l, None, true)
         end.
  (** the task that updates a message *)
  Definition msg_task (k : kind) (t : topo) : task pmemory :=
    map (fun d => perform (read_dep t d) (t_conn t)) (t_deps t) ++ [perform (finish k t) (t_conn t)].

  (** {1 Accesses of independent tasks commute} *)
  Record meq (m m' : pmemory) : Prop := {
    me_s : geq (pm_s m) (pm_s m');
    me_loc : forall t, pm_loc m' t = pm_loc m t;
    me_bad : pm_bad m' = pm_bad m
  }.
  Lemma meq_refl m : meq m m.
  Proof. constructor; auto. apply geq_refl. Qed.
  Lemma meq_sym m m' : meq m m' -> meq m' m.
  Proof. intros [A B C]. constructor; auto. apply geq_sym; auto. Qed.
  Lemma meq_trans a b c : meq a b -> meq b c -> meq a c.
  Proof. intros [A B C] [A' B' C']. constructor. eapply geq_trans; eauto. intros t. rewrite B'; auto. congruence. Qed.

  (** what the task of [t] can read *)
  Definition agree (t : topo) s s' : Prop :=
    nd_merged (g_node s' (t_snd t)) = nd_merged (g_node s (t_snd t)) /\
    (forall d, In d (map fst (t_deps t)) -> act s' (t_snd t) d = act s (t_snd t) d) /\
    act s' (t_rcv t) (t_snd t) = act s (t_rcv t) (t_snd t).
  Definition local (t : topo) (c : access) : Prop := forall s s' l, agree t s s' -> c s' l = c s l.
  Lemma read_local t d : In d (t_deps t) -> local t (read_dep t d).
  Proof. intros I s s' l (_ & A & _). unfold read_dep, deref. rewrite A; auto. apply in_map; auto. Qed.
  Lemma finish_local k t : local t (finish k t).
  Proof. intros s s' l (M & _ & A). unfold finish, new_msg, deref. rewrite M, A. auto. Qed.
  Lemma geq_agree t s s' : geq s s' -> agree t s s'.
  Proof. intros G. unfold agree. split. apply G. split. intros; apply G. apply G. Qed.

  Lemma write_frame p g s : (forall y, nd_merged (g_node (write_msg p g s) y) = nd_merged (g_node s y)) /\ forall y z, (y, z) <> p -> act (write_msg p g s) y z = act s y z.
  Proof.
    destruct p as [a b]. unfold write_msg. simpl. destruct (act s a b) as [c|] eqn:A.
    - destruct (set_act_msg_spec s a b c (Some g) A) as (s1 & E1 & _ & M & _ & B). rewrite E1. auto.
    - unfold set_act_msg. rewrite A. auto.
  Qed.
  Lemma write_geq p g s s' : geq s s' -> geq (write_msg p g s) (write_msg p g s').
  Proof.
    intros G. unfold write_msg. pose proof (sim_set_act_msg s s' (fst p) (snd p) (Some g) G) as S. unfold set_act_msg in *. rewrite (ge_act _ _ G) in *.
    destruct (act s (fst p) (snd p)); simpl in *; auto. destruct S as (s2 & E & G2). injection E as <-. auto.
  Qed.
  Lemma write_comm p g q h s : p <> q -> geq (write_msg p g (write_msg q h s)) (write_msg q h (write_msg p g s)).
  Proof.
    intros D. destruct p as [a b], q as [a' b'].
    destruct (act s a b) as [c|] eqn:A; [destruct (act s a' b') as [d|] eqn:B|].
    - assert (X : exists s1 s2, set_act_msg s a' b' (Some h) = Ret tt s1 /\ set_act_msg s1 a b (Some g) = Ret tt s2).
      { unfold set_act_msg at 1. rewrite B. eexists. eexists. split. reflexivity. unfold set_act_msg. 
        destruct (set_act_msg_spec s a' b' d (Some h) B) as (s1 & E1 & _ & _ & _ & F). unfold set_act_msg in E1. rewrite B in E1. injection E1 as <-. rewrite F, A by congruence. reflexivity. }
      destruct X as (s1 & s2 & E1 & E2). assert (D' : (a', b') <> (a, b)) by congruence. destruct (set_msgs_comm _ _ _ _ _ _ _ _ _ D' E1 E2) as (s1' & s2' & E3 & E4 & G).
      unfold write_msg. simpl. rewrite E1, E3, E2, E4. auto.
    - assert (B' : act (write_msg (a, b) g s) a' b' = None) by (rewrite (proj2 (write_frame (a, b) g s)); auto; congruence).
      assert (E1 : write_msg (a', b') h s = s) by (unfold write_msg, set_act_msg; simpl; rewrite B; auto). rewrite E1.
      replace (write_msg (a', b') h (write_msg (a, b) g s)) with (write_msg (a, b) g s). apply geq_refl.
      unfold write_msg at 2, set_act_msg. cbn [fst snd]. rewrite B'. auto.
    - assert (A' : act (write_msg (a', b') h s) a b = None) by (rewrite (proj2 (write_frame (a', b') h s)); auto; congruence).
      assert (E1 : write_msg (a, b) g s = s) by (unfold write_msg, set_act_msg; simpl; rewrite A; auto). rewrite E1.
      replace (write_msg (a, b) g (write_msg (a', b') h s)) with (write_msg (a', b') h s). apply geq_refl.
      unfold write_msg at 2, set_act_msg. cbn [fst snd]. rewrite A'. auto.
  Qed.
  Lemma perform_proper t c tid m m' : local t c -> meq m m' -> meq (perform c (t_conn t) tid m) (perform c (t_conn t) tid m').
  Proof.
    intros L [G E B]. unfold perform. rewrite E, (L (pm_s m) (pm_s m')) by (apply geq_agree; auto).
    destruct (c (pm_s m) (pm_loc m tid)) as [[l w] b]. constructor; simpl.
    - destruct w; auto. apply write_geq; auto.
    - intros u. unfold fupd. destruct (u =? tid); auto.
    - congruence.
  Qed.
  Lemma write_agree t t2 w s : indep t2 t -> agree t s (match w with Some g => write_msg (t_conn t2) g s | None => s end).
  Proof.
    intros (A & B & C). destruct w as [g|]; [|apply geq_agree, geq_refl]. destruct (write_frame (t_conn t2) g s) as [M F]. split; auto. split.
    - intros d I. apply F. intros E. apply B. rewrite <- E. unfold t_depconns. apply in_map_iff in I as ((d', u) & <- & I). apply in_map_iff. exists (d', u). auto.
    - apply F. intros E. apply A. symmetry. exact E.
  Qed.
  Lemma perform_comm t1 t2 c1 c2 a b m : local t1 c1 -> local t2 c2 -> indep t1 t2 -> a <> b ->
    meq (perform c1 (t_conn t1) a (perform c2 (t_conn t2) b m)) (perform c2 (t_conn t2) b (perform c1 (t_conn t1) a m)).
  Proof.
    intros L1 L2 I D. unfold perform at 2 4. destruct (c2 (pm_s m) (pm_loc m b)) as [[l2 w2] b2] eqn:E2. destruct (c1 (pm_s m) (pm_loc m a)) as [[l1 w1] b1] eqn:E1.
    unfold perform. simpl. rewrite (fupd_ne (pm_loc m) b a l2), (fupd_ne (pm_loc m) a b l1) by auto.
    rewrite (L1 (pm_s m)) by (apply write_agree; apply indep_sym; auto). rewrite (L2 (pm_s m)) by (apply write_agree; auto).
    rewrite E1, E2. constructor; simpl.
    - destruct w1 as [g1|], w2 as [g2|]; try apply geq_refl. apply write_comm. apply I.
    - intros u. unfold fupd. destruct (Nat.eqb_spec u a), (Nat.eqb_spec u b); subst; auto. congruence.
    - rewrite <- !orb_assoc. f_equal. apply orb_comm.
  Qed.

  (** {1 A task alone} *)
  Definition do_task (tid : nat) (a : task pmemory) (m : pmemory) : pmemory := fold_left (fun m f => f tid m) a m.
  Definition rests (l : plocal) : Prop := pl_msgs l = [] /\ pl_skip l = false.
  Lemma skip_reads t tid deps : forall m, pl_skip (pm_loc m tid) = true -> meq (do_task tid (map (fun d => perform (read_dep t d) (t_conn t)) deps) m) m.
  Proof.
    induction deps as [|d deps IH]; intros m S; simpl. apply meq_refl.
    assert (E : meq (perform (read_dep t d) (t_conn t) tid m) m).
    { unfold perform, read_dep. rewrite S. constructor; simpl. apply geq_refl. intros u. unfold fupd. destruct (Nat.eqb_spec u tid); subst; auto. rewrite orb_false_r; auto. }
    eapply meq_trans; [|exact E]. apply IH. rewrite <- (me_loc _ _ E). auto.
  Qed.
  Lemma reads_ok t tid deps : forall m acc, pm_loc m tid = mkLoc acc false (pl_var (pm_loc m tid)) ->
    match dep_messages (pm_s m) (t_snd t) deps with
    | Ok (Some ms) => meq (do_task tid (map (fun d => perform (read_dep t d) (t_conn t)) deps) m)
                          (mkMem (pm_s m) (fupd (pm_loc m) tid (mkLoc (acc ++ ms) false (pl_var (pm_loc m tid)))) (pm_bad m))
    | Ok None => meq (do_task tid (map (fun d => perform (read_dep t d) (t_conn t)) deps) m)
                     (mkMem (pm_s m) (fupd (pm_loc m) tid (mkLoc [] true (pl_var (pm_loc m tid)))) (pm_bad m))
    | _ => True
    end.
  Proof.
    induction deps as [|[d u] deps IH]; intros m acc L; simpl.
    - constructor; simpl; auto. apply geq_refl. intros x. unfold fupd. destruct (Nat.eqb_spec x tid); subst; auto. rewrite app_nil_r. auto.
    - destruct (deref (pm_s m) (t_snd t) d u) as [c| | | |] eqn:E; simpl; auto. destruct (c_msg c) as [g|] eqn:Ec.
      + set (m1 := perform (read_dep t (d, u)) (t_conn t) tid m).
        assert (Em : m1 = mkMem (pm_s m) (fupd (pm_loc m) tid (mkLoc (acc ++ [g]) false (pl_var (pm_loc m tid)))) (pm_bad m)).
        { unfold m1, perform, read_dep. rewrite L. simpl. rewrite E, Ec. simpl. rewrite orb_false_r. auto. }
        assert (L1 : pm_loc m1 tid = mkLoc (acc ++ [g]) false (pl_var (pm_loc m1 tid))) by (rewrite Em; simpl; unfold fupd; rewrite Nat.eqb_refl; auto).
        specialize (IH m1 (acc ++ [g]) L1). replace (pm_s m1) with (pm_s m) in IH by (rewrite Em; auto).
        assert (Z : forall x, meq (mkMem (pm_s m) (fupd (pm_loc m1) tid x) (pm_bad m1)) (mkMem (pm_s m) (fupd (pm_loc m) tid x) (pm_bad m))).
        { intros x. rewrite Em. constructor; simpl; auto. apply geq_refl. intros y. unfold fupd. destruct (y =? tid); auto. }
        assert (V : pl_var (pm_loc m1 tid) = pl_var (pm_loc m tid)) by (rewrite Em; simpl; unfold fupd; rewrite Nat.eqb_refl; auto).
        destruct (dep_messages (pm_s m) (t_snd t) deps) as [[ms|]| | | |]; simpl; auto; rewrite V in IH; (eapply meq_trans; [exact IH|]).
        * rewrite <- app_assoc. apply Z.
        * apply Z.
      + assert (Em : perform (read_dep t (d, u)) (t_conn t) tid m = mkMem (pm_s m) (fupd (pm_loc m) tid (mkLoc [] true (pl_var (pm_loc m tid)))) (pm_bad m)).
        { unfold perform, read_dep. rewrite L. simpl. rewrite E, Ec. simpl. rewrite orb_false_r. auto. }
        rewrite Em. apply skip_reads. simpl. unfold fupd. rewrite Nat.eqb_refl. auto.
  Qed.
  (** the whole task is [updateMessage] *)
  Lemma task_ok k t tid m o s' : rests (pm_loc m tid) -> update_message H k t (pm_s m) = Ret o s' ->
    meq (do_task tid (msg_task k t) m)
        (mkMem s' (fupd (pm_loc m) tid (mkLoc [] false (match o with Some v => vmax (pl_var (pm_loc m tid)) v | None => pl_var (pm_loc m tid) end))) (pm_bad m)).
  Proof.
    intros [R1 R2] U. apply update_message_ret in U as (x & V & W). unfold do_task, msg_task. rewrite fold_left_app. simpl.
    assert (L : pm_loc m tid = mkLoc [] false (pl_var (pm_loc m tid))) by (destruct (pm_loc m tid); simpl in *; subst; auto).
    pose proof (reads_ok t tid (t_deps t) m [] L) as RD. unfold upd_val in V.
    destruct (nd_merged (g_node (pm_s m) (t_snd t))) as [mu|] eqn:EM; [|discriminate].
    destruct (dep_messages (pm_s m) (t_snd t) (t_deps t)) as [[ms|]| | | |]; try discriminate; cbn [rbind] in V.
    - eapply meq_trans. apply (perform_proper t _ tid _ _ (finish_local k t) RD).
      unfold perform, finish. simpl. rewrite !fupd_eq. simpl. unfold new_msg. rewrite EM.
      destruct (merged_unaries (Some mu :: map Some ms)) as [mg| | | |]; try discriminate; cbn [rbind] in *.
      destruct (deref (pm_s m) (t_rcv t) (t_snd t) (t_uid t)) as [c| | | |]; try discriminate; cbn [rbind] in *.
      destruct (message k mg (H (c_fac c))) as [g| | | |]; try discriminate; cbn [rbind] in *.
      assert (Q : exists v, x = Some (g, v) /\ match c_msg c with None => Ok (g, VMax) | Some old => let* d := diff old g in Ok (g, VNum d) end = Ok (g, v)).
      { destruct (c_msg c) as [old|]. destruct (diff old g); try discriminate. injection V as <-. eauto. injection V as <-. eauto. }
      destruct Q as (v & -> & ->). simpl in W. destruct (set_act_msg (pm_s m) (t_rcv t) (t_snd t) (Some g)) as [[] s1| | | |] eqn:S; try discriminate. injection W as <- <-.
      unfold write_msg. cbn [t_conn fst snd]. rewrite S. rewrite orb_false_r. constructor; simpl; auto. apply geq_refl.
      intros y. unfold fupd. destruct (y =? tid); auto.
    - injection V as <-. simpl in W. injection W as <- <-. eapply meq_trans. apply (perform_proper t _ tid _ _ (finish_local k t) RD).
      unfold perform, finish. simpl. rewrite !fupd_eq. simpl. rewrite orb_false_r. constructor; simpl; auto. apply geq_refl.
      intros y. unfold fupd. destruct (y =? tid); auto.
  Qed.

  (** {1 Batches} *)
  Notation tree_task k := (fun t s => do (_, s) <- update_message H k t s ;; Ret tt s).
  Section Batch.
    Variable OK : num_ok N.
    Variable n : nat.
    Hypothesis Hn : 1 <= n.
    Variable kd : kind.
    Variable bs : list (list topo).
    (** the calls of [parallelFor]: one per batch *)
    Definition msg_jobs : list (tasks pmemory) := map (map (msg_task kd)) bs.
    Definition batch (j : nat) : list topo := nth j bs [].
    Hypothesis IND : forall b, In b bs -> indeps b.
    Lemma batch_indeps j : indeps (batch j).
    Proof.
      unfold batch. destruct (nth_in_or_default j bs []) as [I|E]; auto. rewrite E. split. constructor. intros t1 t2 [].
    Qed.
    Lemma job_batch j : job pmemory msg_jobs j = map (msg_task kd) (batch j).
    Proof. unfold job, msg_jobs, batch. change (@nil (task pmemory)) with (map (msg_task kd) []). rewrite map_nth. auto. Qed.
    Lemma acts_batch j k : acts pmemory msg_jobs j k = match nth_error (batch j) k with Some t => msg_task kd t | None => [] end.
    Proof.
      unfold acts. rewrite job_batch. destruct (nth_error (batch j) k) as [t|] eqn:E.
      - apply nth_error_nth. rewrite nth_error_map, E. auto.
      - apply nth_overflow. rewrite map_length. apply nth_error_None. auto.
    Qed.

    Fixpoint do_all (k0 : nat) (ts : list topo) (m : pmemory) : pmemory :=
      match ts with [] => m | t :: r => do_all (S k0) r (do_task (k0 mod n) (msg_task kd t) m) end.
    Lemma effect_task j k u m : k < length (batch j) ->
      effect pmemory msg_jobs j (map (pair u) (task_entries pmemory msg_jobs j k)) m = do_task u (acts pmemory msg_jobs j k) m.
    Proof.
      intros _. unfold effect, task_entries, do_task.
      assert (G : forall a p m, acts pmemory msg_jobs j k = p ++ a ->
        fold_left (effect1 pmemory msg_jobs j) (map (pair u) (map (pair k) (seq (length p) (length a)))) m = fold_left (fun m f => f u m) a m).
      { induction a as [|f a IH]; intros p m0 E; simpl; auto. unfold effect1 at 2. simpl. rewrite E, nth_error_app2, Nat.sub_diag by auto. simpl.
        specialize (IH (p ++ [f]) (f u m0)). rewrite app_length in IH. simpl in IH. rewrite Nat.add_1_r in IH. apply IH. rewrite E, <- app_assoc. auto. }
      apply (G _ [] m). auto.
    Qed.
    Lemma effect_in_order j m : effect pmemory msg_jobs j (in_order pmemory n msg_jobs j) m = do_all 0 (batch j) m.
    Proof.
      unfold in_order. rewrite job_batch, map_length.
      assert (G : forall ts p m, batch j = p ++ ts ->
        effect pmemory msg_jobs j (flat_map (fun k => map (pair (k mod n)) (task_entries pmemory msg_jobs j k)) (seq (length p) (length ts))) m = do_all (length p) ts m).
      { induction ts as [|t ts IH]; intros p m0 E; simpl; auto. unfold effect in *. rewrite fold_left_app.
        change (fold_left (effect1 pmemory msg_jobs j) (map (pair (length p mod n)) (task_entries pmemory msg_jobs j (length p))) m0) with
          (effect pmemory msg_jobs j (map (pair (length p mod n)) (task_entries pmemory msg_jobs j (length p))) m0).
        rewrite effect_task by (rewrite E, app_length; simpl; lia). rewrite acts_batch, E, nth_error_app2, Nat.sub_diag by auto. simpl.
        specialize (IH (p ++ [t])). rewrite app_length in IH. simpl in IH. rewrite Nat.add_1_r in IH. apply IH. rewrite E, <- app_assoc. auto. }
      apply (G (batch j) []). auto.
    Qed.
    Lemma task_nth t i f : nth_error (msg_task kd t) i = Some f -> exists c, f = perform c (t_conn t) /\ local t c.
    Proof.
      unfold msg_task. intros E. apply nth_error_In, in_app_or in E as [E|[<-|[]]].
      - apply in_map_iff in E as (d & <- & I). eexists. split; auto. apply read_local; auto.
      - eexists. split; auto. apply finish_local.
    Qed.
    Lemma effect_interleaving j l m : interleaving pmemory n msg_jobs j l -> meq (effect pmemory msg_jobs j l m) (do_all 0 (batch j) m).
    Proof.
      intros I. rewrite <- effect_in_order.
      set (valid := fun e : entry => fst e < n /\ fst (snd e) mod n = fst e /\ fst (snd e) < length (job pmemory msg_jobs j) /\ snd (snd e) < length (acts pmemory msg_jobs j (fst (snd e)))).
      assert (V : forall e, valid e -> exists t c, nth_error (batch j) (fst (snd e)) = Some t /\ local t c /\ forall m, effect1 pmemory msg_jobs j m e = perform c (t_conn t) (fst e) m).
      { intros [u [k i]] (V1 & V2 & V3 & V4). simpl in *. rewrite acts_batch in V4. destruct (nth_error (batch j) k) as [t|] eqn:Et; [|simpl in V4; lia].
        destruct (nth_error (msg_task kd t) i) as [f|] eqn:Ef; [|apply nth_error_None in Ef; lia]. destruct (task_nth t i f Ef) as (c & -> & L).
        exists t, c. split; auto. split; auto. intros m0. unfold effect1. simpl. rewrite acts_batch, Et, Ef. auto. }
      apply (same_effect pmemory meq meq_refl meq_sym meq_trans (fun e m => effect1 pmemory msg_jobs j m e) valid).
      - intros e m1 m2 Ve E. destruct (V e Ve) as (t & c & _ & L & Q). rewrite !Q. apply perform_proper; auto.
      - intros e f m1 Ve Vf D. destruct (V e Ve) as (t1 & c1 & E1 & L1 & Q1). destruct (V f Vf) as (t2 & c2 & E2 & L2 & Q2). rewrite !Q1, !Q2.
        apply perform_comm; auto. destruct (batch_indeps j) as [ND IN]. apply IN; try (eapply nth_error_In; eauto).
        intros E. apply D. destruct Ve as (_ & Ve & _), Vf as (_ & Vf & _). rewrite <- Ve, <- Vf. f_equal.
        apply (NoDup_nth_error (map t_conn (batch j))); auto. rewrite map_length. apply nth_error_Some. congruence. rewrite !nth_error_map, E1, E2. simpl. congruence.
      - apply Forall_forall. intros e Ie. apply (interleaving_valid pmemory n msg_jobs Hn j l e I Ie).
      - apply Forall_forall. intros e Ie. apply (interleaving_valid pmemory n msg_jobs Hn j _ e (in_order_interleaving pmemory n msg_jobs Hn j) Ie).
      - intros t. destruct (Nat.ltb_spec t n) as [Lt|Ge].
        + rewrite (proj2 I t Lt), (proj2 (in_order_interleaving pmemory n msg_jobs Hn j) t Lt). auto.
        + rewrite !proj_none; auto.
          * intros e Ie. pose proof (proj1 (in_order_interleaving pmemory n msg_jobs Hn j) e Ie). lia.
          * intros e Ie. pose proof (proj1 I e Ie). lia.
    Qed.

    (** the biggest of the variations of the threads
        (BaselineLoopyPropagator.cpp:101-102) *)
    Definition top_var (m : pmemory) : vari := fold_left vmax (map (fun t => pl_var (pm_loc m t)) (seq 1 (n - 1))) (pl_var (pm_loc m 0)).
    Lemma vmax_sym (x y : vari) : vmax x y = vmax y x.
    Proof. destruct x, y; simpl; auto. f_equal. apply (nmax_comm OK). Qed.
    Lemma vmax_ass (x y z : vari) : vmax x (vmax y z) = vmax (vmax x y) z.
    Proof. destruct x, y, z; simpl; auto. f_equal. apply (nmax_assoc OK). Qed.
    Lemma fold_vmax l : forall x y : vari, fold_left vmax l (vmax x y) = vmax (fold_left vmax l x) y.
    Proof. induction l as [|z l IH]; simpl; intros; auto. rewrite <- IH. f_equal. rewrite <- !vmax_ass. f_equal. apply vmax_sym. Qed.
    Lemma top_var_upd m m' tid v : tid < n -> pl_var (pm_loc m' tid) = vmax (pl_var (pm_loc m tid)) v -> (forall u, u <> tid -> pm_loc m' u = pm_loc m u) ->
      top_var m' = vmax (top_var m) v.
    Proof.
      intros L E D. unfold top_var. destruct tid as [|tid].
      - rewrite E, <- fold_vmax. f_equal. apply map_ext_in. intros u I. apply in_seq in I. rewrite D; auto. lia.
      - rewrite (D 0) by auto. assert (SQ : seq 1 (n - 1) = seq 1 tid ++ S tid :: seq (S (S tid)) (n - 2 - tid)).
        { replace (n - 1) with (tid + S (n - 2 - tid)) by lia. rewrite seq_app. f_equal. }
        rewrite SQ, !map_app, !fold_left_app. simpl. rewrite E.
        assert (E1 : map (fun t => pl_var (pm_loc m' t)) (seq 1 tid) = map (fun t => pl_var (pm_loc m t)) (seq 1 tid)) by (apply map_ext_in; intros u I; apply in_seq in I; rewrite D; auto; lia).
        assert (E2 : map (fun t => pl_var (pm_loc m' t)) (seq (S (S tid)) (n - 2 - tid)) = map (fun t => pl_var (pm_loc m t)) (seq (S (S tid)) (n - 2 - tid))) by (apply map_ext_in; intros u I; apply in_seq in I; rewrite D; auto; lia).
        rewrite E1, E2, vmax_ass, fold_vmax. auto.
    Qed.

    Definition resting (m : pmemory) : Prop := forall u, rests (pm_loc m u).
    Lemma task_resting k0 t m o s' : resting m -> update_message H kd t (pm_s m) = Ret o s' ->
      let m' := do_task (k0 mod n) (msg_task kd t) m in
      resting m' /\ geq s' (pm_s m') /\ pm_bad m' = pm_bad m /\ (forall v, o = Some v -> top_var m' = vmax (top_var m) v).
    Proof.
      intros R U. assert (L : k0 mod n < n) by (apply Nat.mod_upper_bound; lia). pose proof (task_ok kd t (k0 mod n) m o s' (R _) U) as [G E B]. simpl in *. splits.
      - intros u. rewrite <- E. unfold fupd. destruct (u =? k0 mod n); [split; auto|apply R].
      - apply geq_sym; auto.
      - auto.
      - intros v ->. apply (top_var_upd m _ (k0 mod n)); auto.
        + rewrite <- E, fupd_eq. auto.
        + intros u D. rewrite <- E, fupd_ne; auto.
    Qed.
    Lemma do_all_tree ts : forall k0 m s', resting m -> ofold (tree_task kd) ts (pm_s m) = Ret tt s' ->
      resting (do_all k0 ts m) /\ geq s' (pm_s (do_all k0 ts m)) /\ pm_bad (do_all k0 ts m) = pm_bad m.
    Proof.
      induction ts as [|t ts IH]; intros k0 m s' R Q; simpl in *. injection Q as <-. splits; auto. apply geq_refl.
      destruct (update_message H kd t (pm_s m)) as [o s1| | | |] eqn:U; try discriminate. simpl in Q.
      destruct (task_resting k0 t m o s1 R U) as (R1 & G1 & B1 & _).
      pose proof (sim_fold (tree_task kd) (tree_task kd) ts (fun x a b _ G => sim_tree_task H kd x a b G) _ _ G1) as SM. rewrite Q in SM. destruct SM as (s2 & SM & G2).
      destruct (IH (S k0) _ s2 R1 SM) as (R2 & G3 & B2). splits; auto. eapply geq_trans; eauto. congruence.
    Qed.
    Lemma do_all_loopy ts : forall k0 m v' s', resting m -> loopy_tasks H kd ts (top_var m) (pm_s m) = Ret v' s' ->
      resting (do_all k0 ts m) /\ geq s' (pm_s (do_all k0 ts m)) /\ pm_bad (do_all k0 ts m) = pm_bad m /\ top_var (do_all k0 ts m) = v'.
    Proof.
      induction ts as [|t ts IH]; intros k0 m v' s' R Q; cbn [loopy_tasks do_all] in *. injection Q as <- <-. splits; auto. apply geq_refl.
      destruct (update_message H kd t (pm_s m)) as [[x|] s1| | | |] eqn:U; try discriminate. cbn [obind] in Q.
      destruct (task_resting k0 t m (Some x) s1 R U) as (R1 & G1 & B1 & V1). specialize (V1 x eq_refl).
      pose proof (sim_loopy_tasks H kd ts (vmax (top_var m) x) _ _ G1) as SM. rewrite Q in SM. destruct SM as (s2 & SM & G2). rewrite <- V1 in SM.
      destruct (IH (S k0) _ v' s2 R1 SM) as (R2 & G3 & B2 & V2). splits; auto. eapply geq_trans; eauto. congruence.
    Qed.
    Lemma meq_top m m' : meq m m' -> top_var m' = top_var m.
    Proof. intros E. unfold top_var. rewrite (me_loc _ _ E). f_equal. apply map_ext. intros u. rewrite (me_loc _ _ E). auto. Qed.
    Lemma meq_rest m m' : meq m m' -> resting m -> resting m'.
    Proof. intros E R u. rewrite (me_loc _ _ E). auto. Qed.

    (** {1 Executions of all the batches} *)
    Lemma effects_tree ls : forall j m s', (forall i l, nth_error ls i = Some l -> interleaving pmemory n msg_jobs (j + i) l) -> resting m ->
      ofold (tree_task kd) (flat_map batch (seq j (length ls))) (pm_s m) = Ret tt s' ->
      geq s' (pm_s (effects pmemory msg_jobs j ls m)) /\ pm_bad (effects pmemory msg_jobs j ls m) = pm_bad m.
    Proof.
      induction ls as [|l ls IH]; intros j m s' I R Q; simpl in *. injection Q as <-. split; auto. apply geq_refl.
      rewrite ofold_app in Q. destruct (ofold (tree_task kd) (batch j) (pm_s m)) as [[] s1| | | |] eqn:Q1; try discriminate. cbn [obind] in Q.
      pose proof (I 0 l eq_refl) as I0. rewrite Nat.add_0_r in I0. pose proof (effect_interleaving j l m I0) as E. destruct (do_all_tree (batch j) 0 m s1 R Q1) as (R1 & G1 & B1).
      assert (G2 : geq s1 (pm_s (effect pmemory msg_jobs j l m))). { eapply geq_trans; [exact G1|]. apply geq_sym, E. }
      pose proof (sim_fold (tree_task kd) (tree_task kd) (flat_map batch (seq (S j) (length ls))) (fun x a b _ G => sim_tree_task H kd x a b G) _ _ G2) as SM. rewrite Q in SM. destruct SM as (s2 & SM & G3).
      destruct (IH (S j) (effect pmemory msg_jobs j l m) s2) as [G4 B2]; auto.
      - intros i l' Hi. specialize (I (S i) l' Hi). rewrite Nat.add_succ_r in I. auto.
      - eapply meq_rest; [apply meq_sym; exact E|auto].
      - split. eapply geq_trans; eauto. rewrite B2, <- (me_bad _ _ E). auto.
    Qed.
    Lemma loopy_tasks_app l1 l2 : forall v s, loopy_tasks H kd (l1 ++ l2) v s = do (v, s) <- loopy_tasks H kd l1 v s ;; loopy_tasks H kd l2 v s.
    Proof.
      induction l1 as [|t l1 IH]; intros v s; simpl; auto. destruct (update_message H kd t s) as [[x|] s1| | | |]; simpl; auto.
    Qed.
    Lemma effects_loopy ls : forall j m v' s', (forall i l, nth_error ls i = Some l -> interleaving pmemory n msg_jobs (j + i) l) -> resting m ->
      loopy_tasks H kd (flat_map batch (seq j (length ls))) (top_var m) (pm_s m) = Ret v' s' ->
      geq s' (pm_s (effects pmemory msg_jobs j ls m)) /\ pm_bad (effects pmemory msg_jobs j ls m) = pm_bad m /\ top_var (effects pmemory msg_jobs j ls m) = v'.
    Proof.
      induction ls as [|l ls IH]; intros j m v' s' I R Q; simpl in *. injection Q as <- <-. splits; auto. apply geq_refl.
      rewrite loopy_tasks_app in Q. destruct (loopy_tasks H kd (batch j) (top_var m) (pm_s m)) as [v1 s1| | | |] eqn:Q1; try discriminate. cbn [obind] in Q.
      pose proof (I 0 l eq_refl) as I0. rewrite Nat.add_0_r in I0. pose proof (effect_interleaving j l m I0) as E. destruct (do_all_loopy (batch j) 0 m v1 s1 R Q1) as (R1 & G1 & B1 & V1).
      assert (G2 : geq s1 (pm_s (effect pmemory msg_jobs j l m))). { eapply geq_trans; [exact G1|]. apply geq_sym, E. }
      rewrite (meq_top _ _ E) in V1.
      pose proof (sim_loopy_tasks H kd (flat_map batch (seq (S j) (length ls))) v1 _ _ G2) as SM. rewrite Q in SM. destruct SM as (s2 & SM & G3). rewrite <- V1 in SM.
      destruct (IH (S j) (effect pmemory msg_jobs j l m) v' s2) as (G4 & B2 & V2); auto.
      - intros i l' Hi. specialize (I (S i) l' Hi). rewrite Nat.add_succ_r in I. auto.
      - eapply meq_rest; [apply meq_sym; exact E|auto].
      - splits; auto. eapply geq_trans; eauto. rewrite B2, <- (me_bad _ _ E). auto.
    Qed.
  End Batch.
End PoolMsg.
