(** Invariant and termination of the pool of threads *)
From Coq Require Import List Arith Bool Lia Permutation.
From Verif Require Import Pool.
Import ListNotations.
Open Scope nat_scope.

Section Proofs.
  Variable M : Type.
  Variable n : nat.
  Variable jobs : list (tasks M).
  Hypothesis Hn : 1 <= n.
  Notation config := (config M).
  Notation job := (job M jobs).
  Notation step := (step M n jobs).
  Implicit Types c : config.

  (** {1 Specification of an execution of a job} *)

  (** the actions of the task [k] *)
  Definition acts (j k : nat) : list (nat -> M -> M) := nth k (job j) [].
  Definition task_entries (j k : nat) : list (nat * nat) := map (pair k) (seq 0 (length (acts j k))).
  (** the thread [t] executes the tasks whose position is [t] modulo the number
      of threads, in order *)
  Definition thread_prog (j t : nat) : list (nat * nat) :=
    flat_map (task_entries j) (filter (fun k => k mod n =? t) (seq 0 (length (job j)))).
  Definition proj (t : nat) (l : list entry) : list (nat * nat) := map snd (filter (fun e => fst e =? t) l).
  (** an execution of the job: the actions of every thread are those of its
      program, in the same order, and there are no others *)
  Definition interleaving (j : nat) (l : list entry) : Prop :=
    (forall e, In e l -> fst e < n) /\ forall t, t < n -> proj t l = thread_prog j t.
  (** effect of a list of actions on the memory *)
  Definition effect1 (j : nat) (m : M) (e : entry) : M :=
    match nth_error (acts j (fst (snd e))) (snd (snd e)) with Some a => a (fst e) m | None => m end.
  Definition effect (j : nat) (l : list entry) (m : M) : M := fold_left (effect1 j) l m.
  Fixpoint effects (j : nat) (ls : list (list entry)) (m : M) : M :=
    match ls with [] => m | l :: r => effects (S j) r (effect j l m) end.

  (** {1 Programs of the threads} *)
  Definition prefix (j t k i : nat) : list (nat * nat) :=
    flat_map (task_entries j) (filter (fun k => k mod n =? t) (seq 0 k)) ++ map (pair k) (seq 0 i).
  Definition at_ok (j k i : nat) : Prop := i <= length (acts j k).

  Lemma proj_snoc t l e : proj t (l ++ [e]) = proj t l ++ (if fst e =? t then [snd e] else []).
  Proof. unfold proj. rewrite filter_app, map_app. simpl. destruct (fst e =? t); auto. Qed.
  Lemma prefix_step j t k i : prefix j t k (S i) = prefix j t k i ++ [(k, i)].
  Proof. unfold prefix. rewrite seq_S, map_app, app_assoc. auto. Qed.
  Lemma filter_none_mod t : forall m k, t < n -> k mod n = t -> m < n -> filter (fun x => x mod n =? t) (seq (S k) m) = [].
  Proof.
    intros m k Lt E Lm. destruct (filter (fun x => x mod n =? t) (seq (S k) m)) as [|x l] eqn:Q; auto.
    assert (I : In x (filter (fun x => x mod n =? t) (seq (S k) m))) by (rewrite Q; simpl; auto).
    apply filter_In in I as [I1 I2]. apply in_seq in I1. apply Nat.eqb_eq in I2.
    assert (Z : x = k + (x - k)) by lia. assert (B : 0 < x - k < n) by lia.
    pose proof (Nat.div_mod k n ltac:(lia)). pose proof (Nat.div_mod x n ltac:(lia)). rewrite E in H. rewrite I2 in H0.
    assert (x - k = n * (x / n - k / n)) by (rewrite Nat.mul_sub_distr_l; lia).
    destruct (x / n - k / n) as [|d]; [lia|]. assert (n * S d >= n) by (rewrite Nat.mul_succ_r; lia). lia.
  Qed.
  Lemma prefix_next j t k : t < n -> k mod n = t -> prefix j t k (length (acts j k)) = prefix j t (k + n) 0.
  Proof.
    intros Lt E. unfold prefix. simpl. rewrite app_nil_r. rewrite seq_app, filter_app, flat_map_app. f_equal. simpl.
    assert (Z : seq k n = k :: seq (S k) (n - 1)) by (replace n with (S (n - 1)) at 1 by lia; auto). rewrite Z.
    cbn [filter]. rewrite E, Nat.eqb_refl. rewrite filter_none_mod; auto; try lia. simpl. rewrite app_nil_r. auto.
  Qed.
  Lemma prefix_first j t : t < n -> prefix j t t 0 = [].
  Proof.
    intros Lt. unfold prefix. simpl. rewrite app_nil_r. replace (filter _ (seq 0 t)) with (@nil nat); auto. symmetry.
    destruct (filter (fun k => k mod n =? t) (seq 0 t)) as [|x l] eqn:Q; auto. assert (I : In x (filter (fun k => k mod n =? t) (seq 0 t))) by (rewrite Q; simpl; auto).
    apply filter_In in I as [I1 I2]. apply in_seq in I1. rewrite Nat.mod_small in I2 by lia. apply Nat.eqb_eq in I2. lia.
  Qed.
  Lemma prefix_end j t k : length (job j) <= k -> prefix j t k 0 = thread_prog j t.
  Proof.
    intros L. unfold prefix, thread_prog. simpl. rewrite app_nil_r. replace k with (length (job j) + (k - length (job j))) by lia.
    rewrite seq_app, filter_app, flat_map_app. replace (flat_map _ (filter _ (seq (0 + _) _))) with (@nil (nat * nat)). rewrite app_nil_r; auto.
    symmetry. simpl. generalize (k - length (job j)). intros m. assert (G : forall a, length (job j) <= a -> flat_map (task_entries j) (filter (fun k => k mod n =? t) (seq a m)) = []).
    { induction m as [|m IH]; intros a La; simpl; auto. destruct (a mod n =? t); simpl; [|apply IH; lia].
      unfold task_entries, acts. rewrite nth_overflow by lia. simpl. apply IH. lia. }
    apply G. auto.
  Qed.
  Lemma mod_next k : (k + n) mod n = k mod n.
  Proof. rewrite <- (Nat.mul_1_l n) at 1. apply Nat.mod_add. lia. Qed.

  Lemma proc_act j k i a : proc M jobs j k i = PAct _ a -> nth_error (acts j k) i = Some a.
  Proof.
    unfold proc, acts. destruct (nth_error (job j) k) as [t|] eqn:E; [|discriminate]. rewrite (nth_error_nth (job j) k [] E : nth k (job j) [] = t).
    destruct (nth_error t i); [|discriminate]. intros [= ->]. auto.
  Qed.
  Lemma proc_next j k i : proc M jobs j k i = PNext _ -> length (acts j k) <= i.
  Proof.
    unfold proc, acts. destruct (nth_error (job j) k) as [t|] eqn:E; [|discriminate]. rewrite (nth_error_nth (job j) k [] E : nth k (job j) [] = t).
    destruct (nth_error t i) eqn:Q; [discriminate|]. intros _. apply nth_error_None; auto.
  Qed.
  Lemma proc_end j k i : proc M jobs j k i = PEnd _ -> length (job j) <= k /\ length (acts j k) = 0.
  Proof.
    unfold proc, acts. destruct (nth_error (job j) k) as [t|] eqn:E. { destruct (nth_error t i); discriminate. }
    apply nth_error_None in E. intros _. split; auto. rewrite nth_overflow; auto.
  Qed.

  (** {1 Invariant} *)
  Definition idle (w : worker) : Prop := w_slot w = Null /\ (w_pc w = WLife \/ w_pc w = WLoad).
  Definition wact (j t : nat) (w : worker) (p : list (nat * nat)) : Prop :=
    (w_slot w = Ptr j /\ (w_pc w = WLife \/ w_pc w = WLoad) /\ p = []) \/
    (w_slot w = Ptr j /\ exists k i, w_pc w = WRun j k i /\ k mod n = t /\ at_ok j k i /\ p = prefix j t k i) \/
    (w_slot w = Ptr j /\ w_pc w = WStore /\ p = thread_prog j t) \/
    (idle w /\ p = thread_prog j t).
  Definition leaving (w : worker) : Prop := w_slot w = Null /\ (w_pc w = WLife \/ w_pc w = WLoad \/ w_pc w = WExit).
  Definition is_worker (t : nat) : Prop := 1 <= t < n.

  Definition phase c : Prop :=
    let j := length (c_past M c) in
    let p t := proj t (c_log M c) in
    match c_m M c with
    | MNew k => 1 <= k <= n /\ c_life M c = true /\ j = 0 /\ c_log M c = [] /\
        forall t, is_worker t -> if t <? k then idle (c_w M c t) else c_w M c t = mkW WNew Uninit
    | MInit k => is_worker k /\ c_life M c = true /\ j = 0 /\ c_log M c = [] /\
        forall t, is_worker t -> if t <? k then idle (c_w M c t)
          else if t =? k then w_slot (c_w M c t) = Uninit /\ (w_pc (c_w M c t) = WLife \/ w_pc (c_w M c t) = WLoad)
          else c_w M c t = mkW WNew Uninit
    | MPub j' k => j' = j /\ j < length jobs /\ 1 <= k <= n /\ c_life M c = true /\ p 0 = [] /\
        forall t, is_worker t -> if t <? k then wact j t (c_w M c t) (p t) else idle (c_w M c t) /\ p t = []
    | MRun j' k i => j' = j /\ j < length jobs /\ c_life M c = true /\ k mod n = 0 /\ at_ok j k i /\ p 0 = prefix j 0 k i /\
        forall t, is_worker t -> wact j t (c_w M c t) (p t)
    | MWait j' k => j' = j /\ j < length jobs /\ 1 <= k <= n /\ c_life M c = true /\ p 0 = thread_prog j 0 /\
        (forall t, is_worker t -> wact j t (c_w M c t) (p t)) /\ forall t, is_worker t -> t < k -> w_slot (c_w M c t) = Null
    | MKill => j = length jobs /\ c_life M c = true /\ c_log M c = [] /\ forall t, is_worker t -> idle (c_w M c t)
    | MJoin k => j = length jobs /\ 1 <= k <= n /\ c_life M c = false /\ c_log M c = [] /\
        forall t, is_worker t -> leaving (c_w M c t) /\ (t < k -> w_pc (c_w M c t) = WExit)
    | MDone => j = length jobs /\ c_log M c = [] /\ c_life M c = false /\ forall t, is_worker t -> leaving (c_w M c t) /\ w_pc (c_w M c t) = WExit
    end.

  Record pinv (m0 : M) c : Prop := {
    pi_past : forall j l, nth_error (c_past M c) j = Some l -> interleaving j l;
    pi_threads : forall e, In e (c_log M c) -> fst e < n;
    pi_mem : c_mem M c = effect (length (c_past M c)) (c_log M c) (effects 0 (c_past M c) m0);
    pi_phase : phase c
  }.

  Lemma effect_snoc j l e m : effect j (l ++ [e]) m = effect1 j (effect j l m) e.
  Proof. unfold effect. rewrite fold_left_app. auto. Qed.
  Lemma effects_snoc ls l : forall j m, effects j (ls ++ [l]) m = effect (j + length ls) l (effects j ls m).
  Proof.
    induction ls as [|x ls IH]; intros j m; simpl. rewrite Nat.add_0_r; auto. rewrite IH. f_equal. lia.
  Qed.
  Lemma effect1_at j k i a t m : nth_error (acts j k) i = Some a -> effect1 j m (t, (k, i)) = a t m.
  Proof. intros E. unfold effect1. simpl. rewrite E. auto. Qed.

  Lemma pinv_start m : pinv m (start M m).
  Proof.
    constructor; simpl; auto.
    - intros [|j] l E; discriminate.
    - contradiction.
    - unfold phase. simpl. repeat split; auto. intros t [L _]. destruct (Nat.ltb_spec t 1); auto; lia.
  Qed.

  (** the part of a configuration a worker cannot change *)
  Lemma worker_wact j t c : j = length (c_past M c) -> t < n -> t <> 0 -> c_life M c = true -> wact j t (c_w M c t) (proj t (c_log M c)) ->
    let c' := worker_step M n jobs t c in
    c_m M c' = c_m M c /\ c_past M c' = c_past M c /\ c_life M c' = c_life M c /\ c_ub M c' = c_ub M c /\
    (forall u, u <> t -> c_w M c' u = c_w M c u /\ proj u (c_log M c') = proj u (c_log M c)) /\
    wact j t (c_w M c' t) (proj t (c_log M c')).
  Proof.
    intros Ej Lt T0 Li W. cbv zeta. unfold worker_step.
    assert (SW : forall w, c_w M (set_w M c t w) t = w) by (intros; simpl; rewrite Nat.eqb_refl; auto).
    assert (OW : forall c w u, u <> t -> c_w M (set_w M c t w) u = c_w M c u).
    { intros. simpl. destruct (Nat.eqb_spec u t); congruence. }
    destruct W as [(S & [P|P] & Q)|[(S & k & i & P & K & A & Q)|[(S & P & Q)|((S & [P|P]) & Q)]]]; rewrite P.
    - rewrite Li. repeat split; auto. rewrite SW. left. simpl. auto.
    - rewrite S. repeat split; auto. rewrite SW. right. left. simpl. split; auto. exists t, 0. split; auto. split; [apply Nat.mod_small; auto|].
      split. unfold at_ok; lia. rewrite Q, prefix_first; auto.
    - destruct (proc M jobs j k i) eqn:E.
      + apply proc_act in E. repeat split; auto.
        * intros. simpl. destruct (Nat.eqb_spec u t); [congruence|auto].
        * simpl. rewrite proj_snoc. simpl. destruct (Nat.eqb_spec t u); [congruence|]. apply app_nil_r.
        * right. left. simpl. rewrite Nat.eqb_refl. simpl. split; auto. exists k, (Datatypes.S i). split; auto. split; auto. split.
          -- unfold at_ok. assert (i < length (acts j k)) by (apply nth_error_Some; congruence). lia.
          -- rewrite proj_snoc. simpl. rewrite Nat.eqb_refl, Q, prefix_step. auto.
      + apply proc_next in E. repeat split; auto. rewrite SW. right. left. simpl. split; auto. exists (k + n), 0. split; auto.
        split; [rewrite mod_next; auto|]. split; [unfold at_ok; lia|]. rewrite Q. unfold at_ok in A. replace i with (length (acts j k)) by lia. apply prefix_next; auto.
      + apply proc_end in E as [E1 E2]. repeat split; auto. rewrite SW. right. right. left. simpl. split; auto. split; auto.
        rewrite Q. unfold at_ok in A. replace i with 0 by lia. apply prefix_end; auto.
    - repeat split; auto. rewrite SW. right. right. right. split; auto. split; simpl; auto.
    - rewrite Li. repeat split; auto. rewrite SW. right. right. right. split; auto. split; simpl; auto.
    - rewrite S. repeat split; auto. rewrite SW. right. right. right. split; auto. split; simpl; auto.
  Qed.
  Ltac sp := repeat match goal with |- _ /\ _ => split end.
  Lemma worker_mild t c : (idle (c_w M c t) \/ leaving (c_w M c t) \/ c_w M c t = mkW WNew Uninit) ->
    let c' := worker_step M n jobs t c in
    c_m M c' = c_m M c /\ c_past M c' = c_past M c /\ c_life M c' = c_life M c /\ c_ub M c' = c_ub M c /\ c_log M c' = c_log M c /\ c_mem M c' = c_mem M c /\
    (forall u, u <> t -> c_w M c' u = c_w M c u) /\
    (c_life M c = true -> idle (c_w M c t) -> idle (c_w M c' t)) /\
    (leaving (c_w M c t) -> leaving (c_w M c' t)) /\
    (w_pc (c_w M c t) = WExit -> w_pc (c_w M c' t) = WExit) /\
    (c_w M c t = mkW WNew Uninit -> c_w M c' t = mkW WNew Uninit).
  Proof.
    intros W. cbv zeta. unfold worker_step.
    assert (SW : forall w, c_w M (set_w M c t w) t = w) by (intros; simpl; rewrite Nat.eqb_refl; auto).
    assert (OW : forall w u, u <> t -> c_w M (set_w M c t w) u = c_w M c u).
    { intros. simpl. destruct (Nat.eqb_spec u t); congruence. }
    destruct (w_pc (c_w M c t)) eqn:P.
    - sp; auto; congruence.
    - assert (S : w_slot (c_w M c t) = Null). { destruct W as [[S _]|[[S _]|E]]; auto. rewrite E in P; discriminate. }
      rewrite SW. sp; auto; try congruence.
      + intros -> _. split; simpl; auto.
      + intros _. split; simpl; auto. destruct (c_life M c); auto.
      + intros E; rewrite E in P; discriminate.
    - assert (S : w_slot (c_w M c t) = Null). { destruct W as [[S _]|[[S _]|E]]; auto. rewrite E in P; discriminate. }
      rewrite S, SW. sp; auto; try congruence.
      + intros _ _. split; simpl; auto.
      + intros _. split; simpl; auto.
      + intros E; rewrite E in P; discriminate.
    - exfalso. destruct W as [[_ [Q|Q]]|[[_ [Q|[Q|Q]]]|Q]]; try congruence. rewrite Q in P; discriminate.
    - exfalso. destruct W as [[_ [Q|Q]]|[[_ [Q|[Q|Q]]]|Q]]; try congruence. rewrite Q in P; discriminate.
    - sp; auto; congruence.
  Qed.

  Lemma worker_frame t c : t < n -> (forall j k i, w_pc (c_w M c t) = WRun j k i -> j = length (c_past M c)) ->
    let c' := worker_step M n jobs t c in
    c_past M c' = c_past M c /\
    ((forall e, In e (c_log M c) -> fst e < n) -> forall e, In e (c_log M c') -> fst e < n) /\
    (forall m0, c_mem M c = effect (length (c_past M c)) (c_log M c) m0 -> c_mem M c' = effect (length (c_past M c')) (c_log M c') m0).
  Proof.
    intros Lt J. cbv zeta. unfold worker_step. destruct (w_pc (c_w M c t)) as [| | |j k i| |] eqn:P; sp; auto.
    - destruct (w_slot (c_w M c t)); auto.
    - destruct (w_slot (c_w M c t)); auto.
    - destruct (w_slot (c_w M c t)); auto.
    - destruct (proc M jobs j k i); auto.
    - destruct (proc M jobs j k i); auto. simpl. intros H e I. apply in_app_or in I as [I|[<-|[]]]; auto.
    - intros m0 E. destruct (proc M jobs j k i) eqn:Q; auto. simpl. specialize (J _ _ _ eq_refl). subst j. apply proc_act in Q.
      rewrite effect_snoc, <- E. symmetry. apply effect1_at; auto.
  Qed.

  Lemma phase_run t c : is_worker t -> phase c -> forall j k i, w_pc (c_w M c t) = WRun j k i -> j = length (c_past M c).
  Proof.
    intros W P j k i E.
    assert (I1 : idle (c_w M c t) -> j = length (c_past M c)) by (intros [_ [Q|Q]]; rewrite Q in E; discriminate).
    assert (I2 : forall j' p, j' = length (c_past M c) -> wact j' t (c_w M c t) p -> j = length (c_past M c)).
    { intros j' p -> [(_ & [Q|Q] & _)|[(_ & k' & i' & Q & _)|[(_ & Q & _)|((_ & [Q|Q]) & _)]]]; rewrite Q in E; try discriminate. congruence. }
    assert (I3 : leaving (c_w M c t) -> j = length (c_past M c)) by (intros [_ [Q|[Q|Q]]]; rewrite Q in E; discriminate).
    assert (I4 : c_w M c t = mkW WNew Uninit -> j = length (c_past M c)) by (intros Q; rewrite Q in E; discriminate).
    unfold phase in P. destruct (c_m M c) as [k'|k'|j' k'|j' k' i'|j' k'| |k'|].
    - destruct P as (_ & _ & _ & _ & P). specialize (P t W). destruct (t <? k'); auto.
    - destruct P as (_ & _ & _ & _ & P). specialize (P t W). destruct (t <? k'); auto. destruct (t =? k'); auto.
      destruct P as [_ [Q|Q]]; rewrite Q in E; discriminate.
    - destruct P as (_ & _ & _ & _ & _ & P). specialize (P t W). destruct (t <? k'). eapply I2; eauto. apply I1, P.
    - destruct P as (_ & _ & _ & _ & _ & _ & P). eapply I2; eauto.
    - destruct P as (_ & _ & _ & _ & _ & P & _). eapply I2; eauto.
    - destruct P as (_ & _ & _ & P). auto.
    - destruct P as (_ & _ & _ & _ & P). apply I3, P; auto.
    - destruct P as (_ & _ & _ & P). apply I3, P; auto.
  Qed.

  Lemma worker_phase t c : is_worker t -> phase c -> c_ub M (worker_step M n jobs t c) = false -> phase (worker_step M n jobs t c).
  Proof.
    intros W P U. pose proof W as [W1 W2].
    assert (MILD : (idle (c_w M c t) \/ leaving (c_w M c t) \/ c_w M c t = mkW WNew Uninit) -> _) by exact (worker_mild t c).
    assert (ACT : c_life M c = true -> wact (length (c_past M c)) t (c_w M c t) (proj t (c_log M c)) -> _) by (intros L; apply (worker_wact (length (c_past M c)) t c); auto; lia).
    cbv zeta in MILD, ACT. set (c' := worker_step M n jobs t c) in *. unfold phase in *.
    destruct (c_m M c) as [k'|k'|j' k'|j' k' i'|j' k'| |k'|] eqn:EM.
    - destruct P as (A & B & C & D & P). pose proof (P t W) as Pt.
      destruct MILD as (M1 & M2 & M3 & _ & M4 & _ & M5 & M6 & M7 & M8 & M9); [destruct (t <? k'); auto|].
      rewrite M1, M2, M3, M4. sp; try apply A; auto. intros u Hu. destruct (Nat.eq_dec u t) as [->|Ne].
      destruct (t <? k'); auto. rewrite M5 by auto. apply P; auto.
    - destruct P as (A & B & C & D & P). pose proof (P t W) as Pt.
      destruct (Nat.ltb_spec t k') as [L|L]; [|destruct (Nat.eqb_spec t k') as [E|E]].
      + destruct MILD as (M1 & M2 & M3 & _ & M4 & _ & M5 & M6 & M7 & M8 & M9); auto. rewrite M1, M2, M3, M4. sp; try apply A; auto.
        intros u Hu. destruct (Nat.eq_dec u t) as [->|Ne]. destruct (Nat.ltb_spec t k'); auto; lia. rewrite M5 by auto. apply P; auto.
      + subst k'. destruct Pt as [Su Pc]. unfold c' in *. unfold worker_step in *. destruct Pc as [Pc|Pc]; rewrite Pc in *.
        * rewrite B in *. simpl. rewrite EM. sp; try apply A; auto. intros u Hu. destruct (Nat.eq_dec u t) as [->|Ne].
          rewrite Nat.ltb_irrefl, Nat.eqb_refl. simpl. auto. specialize (P u Hu). destruct (Nat.eqb_spec u t); [contradiction|]. auto.
        * rewrite Su in *. discriminate.
      + destruct MILD as (M1 & M2 & M3 & _ & M4 & _ & M5 & M6 & M7 & M8 & M9); auto. rewrite M1, M2, M3, M4. sp; try apply A; auto.
        intros u Hu. destruct (Nat.eq_dec u t) as [->|Ne]. destruct (Nat.ltb_spec t k'); [lia|]. destruct (Nat.eqb_spec t k'); [contradiction|]. auto.
        rewrite M5 by auto. apply P; auto.
    - destruct P as (-> & B & C & D & P0 & P). pose proof (P t W) as Pt. destruct (Nat.ltb_spec t k') as [L|L].
      + destruct (ACT D Pt) as (M1 & M2 & M3 & _ & M5 & M6). rewrite M1, M2, M3. sp; try apply C; auto. rewrite (proj2 (M5 0 ltac:(lia))). auto.
        intros u Hu. destruct (Nat.eq_dec u t) as [->|Ne]. destruct (Nat.ltb_spec t k'); auto; lia. destruct (M5 u Ne) as [-> ->]. apply P; auto.
      + destruct Pt as [Pi Pp]. destruct MILD as (M1 & M2 & M3 & _ & M4 & _ & M5 & M6 & M7 & M8 & M9); auto. rewrite M1, M2, M3, M4. sp; try apply C; auto.
        intros u Hu. destruct (Nat.eq_dec u t) as [->|Ne]. destruct (Nat.ltb_spec t k'); auto; lia. rewrite M5 by auto. apply P; auto.
    - destruct P as (-> & B & D & K & A & P0 & P). destruct (ACT D (P t W)) as (M1 & M2 & M3 & _ & M5 & M6). rewrite M1, M2, M3. sp; auto.
      rewrite (proj2 (M5 0 ltac:(lia))). auto. intros u Hu. destruct (Nat.eq_dec u t) as [->|Ne]; auto. destruct (M5 u Ne) as [-> ->]. apply P; auto.
    - destruct P as (-> & B & C & D & P0 & P & PN). destruct (ACT D (P t W)) as (M1 & M2 & M3 & _ & M5 & M6). rewrite M1, M2, M3. sp; try apply C; auto.
      rewrite (proj2 (M5 0 ltac:(lia))). auto. intros u Hu. destruct (Nat.eq_dec u t) as [->|Ne]; auto. destruct (M5 u Ne) as [-> ->]. apply P; auto.
      intros u Hu Lu. destruct (Nat.eq_dec u t) as [->|Ne]; auto.
      + specialize (PN t Hu Lu). unfold c', worker_step. destruct (P t W) as [(S & _)|[(S & _)|[(S & _)|((S & [Pc|Pc]) & _)]]]; try congruence; rewrite Pc.
        simpl. rewrite Nat.eqb_refl. simpl. auto. rewrite S. simpl. rewrite Nat.eqb_refl. auto.
      + rewrite (proj1 (M5 u Ne)). auto.
    - destruct P as (A & B & C & P). pose proof (P t W) as Pt. destruct MILD as (M1 & M2 & M3 & _ & M4 & _ & M5 & M6 & M7 & M8 & M9); auto.
      rewrite M1, M2, M3, M4. sp; auto. intros u Hu. destruct (Nat.eq_dec u t) as [->|Ne]; auto. rewrite M5 by auto. auto.
    - destruct P as (A & A' & B & C & P). pose proof (P t W) as [Pt Px]. destruct MILD as (M1 & M2 & M3 & _ & M4 & _ & M5 & M6 & M7 & M8 & M9); auto.
      rewrite M1, M2, M3, M4. sp; try apply A'; auto. intros u Hu. destruct (Nat.eq_dec u t) as [->|Ne]; auto. rewrite M5 by auto. auto.
    - destruct P as (A & B & C & P). pose proof (P t W) as [Pt Px]. destruct MILD as (M1 & M2 & M3 & _ & M4 & _ & M5 & M6 & M7 & M8 & M9); auto.
      rewrite M1, M2, M3, M4. sp; auto. intros u Hu. destruct (Nat.eq_dec u t) as [->|Ne]; auto. rewrite M5 by auto. auto.
  Qed.

  Lemma enter_phase c : length (c_past M c) <= length jobs -> c_life M c = true -> c_log M c = [] -> (forall t, is_worker t -> idle (c_w M c t)) ->
    phase (set_m M c (enter M jobs (length (c_past M c)))).
  Proof.
    intros L Li Lg I. unfold phase, enter. simpl. destruct (Nat.ltb_spec (length (c_past M c)) (length jobs)).
    - rewrite Lg. sp; auto; try lia. intros t Ht. destruct (Nat.ltb_spec t 1); auto. destruct Ht; lia.
    - sp; auto. lia.
  Qed.
  Lemma idle_slot w s : idle w -> w_slot (mkW (w_pc w) s) = s /\ (w_pc (mkW (w_pc w) s) = WLife \/ w_pc (mkW (w_pc w) s) = WLoad).
  Proof. intros [_ P]. simpl. auto. Qed.

  Lemma main_inv m0 c : pinv m0 c -> pinv m0 (main_step M n jobs c).
  Proof.
    intros [PA TH ME PH]. unfold phase in PH. unfold main_step.
    destruct (c_m M c) as [k|k|j k|j k i|j k| |k|] eqn:EM.
    - destruct PH as (A & B & C & D & P). destruct (Nat.ltb_spec k n).
      + constructor; simpl; auto. unfold phase. simpl. sp; auto. split; lia. intros t Ht. specialize (P t Ht).
        destruct (Nat.eq_dec t k) as [->|Ne]; [rewrite Nat.eqb_refl in *|rewrite (proj2 (Nat.eqb_neq t k) Ne) in *].
        * rewrite Nat.ltb_irrefl in *. rewrite P. simpl. auto.
        * destruct (t <? k); auto.
      + constructor; simpl; auto. rewrite <- C. apply enter_phase; auto. lia. intros t Ht. specialize (P t Ht). destruct (Nat.ltb_spec t k); auto. destruct Ht; lia.
    - destruct PH as (A & B & C & D & P). constructor; simpl; auto. unfold phase; simpl. sp; auto. lia. destruct A; lia. intros t Ht. specialize (P t Ht).
      destruct (Nat.eq_dec t k) as [->|Ne]; [rewrite Nat.eqb_refl in *|rewrite (proj2 (Nat.eqb_neq t k) Ne) in *].
      + rewrite Nat.ltb_irrefl in P. destruct (Nat.ltb_spec k (S k)); [|lia]. split; simpl; auto. apply P.
      + destruct (Nat.ltb_spec t (S k)), (Nat.ltb_spec t k); auto; lia.
    - destruct PH as (-> & B & C & D & P0 & P). destruct (Nat.ltb_spec k n).
      + constructor; simpl; auto. unfold phase; simpl. sp; auto; try lia. intros t Ht. specialize (P t Ht). destruct (Nat.eq_dec t k) as [->|Ne]; [rewrite Nat.eqb_refl in *|rewrite (proj2 (Nat.eqb_neq t k) Ne) in *].
        * rewrite Nat.ltb_irrefl in P. destruct (Nat.ltb_spec k (S k)); [|lia]. left. destruct P as [[P1 P2] P3]. simpl. auto.
        * destruct (Nat.ltb_spec t (S k)), (Nat.ltb_spec t k); auto; lia.
      + constructor; simpl; auto. unfold phase; simpl. sp; auto. apply Nat.mod_small; lia. unfold at_ok; lia.
        intros t Ht. specialize (P t Ht). destruct (Nat.ltb_spec t k); auto. destruct Ht; lia.
    - destruct PH as (-> & B & D & K & A & P0 & P). destruct (proc M jobs (length (c_past M c)) k i) eqn:Q.
      + apply proc_act in Q. constructor; simpl; auto.
        * intros e I. apply in_app_or in I as [I|[<-|[]]]; auto.
        * rewrite effect_snoc, <- ME. symmetry. apply effect1_at; auto.
        * unfold phase; simpl. sp; auto.
          -- unfold at_ok. assert (i < length (acts (length (c_past M c)) k)) by (apply nth_error_Some; congruence). lia.
          -- rewrite proj_snoc. simpl. rewrite P0, prefix_step. auto.
          -- intros t Ht. rewrite proj_snoc. destruct t; [destruct Ht; lia|]. simpl. rewrite app_nil_r. auto.
      + apply proc_next in Q. constructor; simpl; auto. unfold phase; simpl. sp; auto. rewrite mod_next; auto. unfold at_ok; lia.
        rewrite P0. unfold at_ok in A. replace i with (length (acts (length (c_past M c)) k)) by lia. apply prefix_next; auto.
      + apply proc_end in Q as [Q1 Q2]. constructor; simpl; auto. unfold phase; simpl. sp; auto. rewrite P0. unfold at_ok in A. replace i with 0 by lia. apply prefix_end; auto.
        intros t Ht L. destruct Ht; lia.
    - destruct PH as (-> & B & C & D & P0 & P & PN). destruct (Nat.ltb_spec k n).
      + assert (R : w_slot (c_w M c k) <> Null -> pinv m0 (set_m M c (MWait (length (c_past M c)) 1))).
        { intros _. constructor; simpl; auto. unfold phase; simpl. sp; auto. intros t [L _] L'. lia. }
        destruct (w_slot (c_w M c k)) eqn:S; try (apply R; congruence).
        constructor; simpl; auto. unfold phase; simpl. sp; auto; try lia. intros t Ht L. destruct (Nat.eq_dec t k) as [->|]; auto. apply PN; auto. lia.
      + assert (NW : forall t, is_worker t -> idle (c_w M c t) /\ proj t (c_log M c) = thread_prog (length (c_past M c)) t).
        { intros t Ht. assert (S := PN t Ht ltac:(destruct Ht; lia)). destruct (P t Ht) as [(S' & _)|[(S' & _)|[(S' & _)|(I & E)]]]; try congruence. auto. }
        set (c1 := close M c). assert (E1 : S (length (c_past M c)) = length (c_past M c1)) by (simpl; rewrite app_length; simpl; lia).
        constructor.
        * simpl. intros j l. destruct (Nat.lt_ge_cases j (length (c_past M c))). rewrite nth_error_app1 by auto. auto.
          rewrite nth_error_app2 by auto. destruct (j - length (c_past M c)) as [|d] eqn:Z; simpl; [|destruct d; discriminate]. intros [= <-].
          replace j with (length (c_past M c)) by lia. split; auto. intros t Ht. destruct (Nat.eq_dec t 0) as [->|]; auto. apply NW. split; lia.
        * simpl. contradiction.
        * simpl. rewrite effects_snoc. simpl. auto.
        * rewrite E1. apply enter_phase; auto. lia. intros t Ht. simpl. apply NW; auto.
    - destruct PH as (A & B & C & P). constructor; simpl; auto. unfold phase; simpl. sp; auto. intros t Ht. destruct (P t Ht) as [S [Q|Q]].
      split. split; auto. intros L; destruct Ht; lia. split. split; auto. intros L; destruct Ht; lia.
    - destruct PH as (A & A' & B & C & P). destruct (Nat.ltb_spec k n).
      + destruct (w_pc (c_w M c k)) eqn:Q; try (constructor; auto; unfold phase; rewrite EM; sp; try apply A'; auto; fail).
        constructor; simpl; auto. unfold phase; simpl. sp; auto; try lia. intros t Ht. destruct (P t Ht) as [P1 P2]. split; auto. intros L.
        destruct (Nat.eq_dec t k) as [->|]; auto. apply P2. lia.
      + constructor; simpl; auto. unfold phase; simpl. sp; auto. intros t Ht. destruct (P t Ht) as [P1 P2]. split; auto. apply P2. destruct Ht; lia.
    - constructor; auto. unfold phase. rewrite EM. auto.
  Qed.

  Lemma step_inv m0 t c : pinv m0 c -> c_ub M (step t c) = false -> pinv m0 (step t c).
  Proof.
    intros I U. unfold Pool.step in *. destruct (Nat.eqb_spec t 0) as [->|T0]. apply main_inv; auto. destruct (Nat.ltb_spec t n); auto.
    assert (W : is_worker t) by (split; lia). destruct I as [PA TH ME PH].
    destruct (worker_frame t c ltac:(lia) (phase_run t c W PH)) as (F1 & F2 & F3). constructor; auto.
    - rewrite F1. auto.
    - apply F3 in ME. rewrite ME. rewrite F1. auto.
    - apply worker_phase; auto.
  Qed.
  Lemma ub_stays t c : c_ub M c = true -> c_ub M (step t c) = true.
  Proof.
    intros U. unfold Pool.step, main_step, worker_step.
    repeat match goal with |- context [match ?x with _ => _ end] => destruct x; simpl; auto end.
  Qed.
  Lemma ub_stays_run sched : forall c, c_ub M c = true -> c_ub M (run M n jobs sched c) = true.
  Proof. induction sched as [|t s IH]; intros c U; simpl; auto. apply IH, ub_stays, U. Qed.
  Lemma run_inv m0 sched : forall c, pinv m0 c -> c_ub M (run M n jobs sched c) = false -> pinv m0 (run M n jobs sched c).
  Proof.
    induction sched as [|t s IH]; intros c I U; auto. change (c_ub M (run M n jobs s (step t c)) = false) in U.
    change (pinv m0 (run M n jobs s (step t c))). apply IH; auto. apply step_inv; auto.
    destruct (c_ub M (step t c)) eqn:E; auto. rewrite (ub_stays_run s _ E) in U. discriminate.
  Qed.

  (** {1 Termination under fair schedules} *)
  Section Fair.
    Variable m0 : M.
    (** the thread that does the step number [i] *)
    Variable sched : nat -> nat.
    Definition config_at (i : nat) : config := run M n jobs (map sched (seq 0 i)) (start M m0).
    Notation C := config_at.
    (** every thread always does a further step *)
    Hypothesis fair : forall t, t < n -> forall i, exists i', i <= i' /\ sched i' = t.
    Hypothesis defined : forall i, c_ub M (C i) = false.

    Lemma config_S i : C (S i) = step (sched i) (C i).
    Proof. unfold config_at. rewrite seq_S, map_app. unfold run. rewrite fold_left_app. auto. Qed.
    Lemma config_inv i : pinv m0 (C i).
    Proof. apply run_inv. apply pinv_start. apply defined. Qed.

    Definition leads (P Q : config -> Prop) : Prop := forall i, P (C i) -> exists i', i <= i' /\ Q (C i').
    Lemma leads_now (P Q : config -> Prop) : (forall i, P (C i) -> Q (C i)) -> leads P Q.
    Proof. intros H i Pi. exists i. auto. Qed.
    Lemma leads_trans P Q R : leads P Q -> leads Q R -> leads P R.
    Proof. intros A B i Pi. destruct (A i Pi) as (i1 & L1 & H1). destruct (B i1 H1) as (i2 & L2 & H2). exists i2. split; auto. lia. Qed.
    Lemma leads_or P P' Q : leads P Q -> leads P' Q -> leads (fun c => P c \/ P' c) Q.
    Proof. intros A B i [H|H]; auto. Qed.
    Lemma leads_refl P : leads P P.
    Proof. apply leads_now; auto. Qed.
    Lemma ensures t (P Q : config -> Prop) : t < n ->
      (forall i, P (C i) -> sched i <> t -> P (C (S i)) \/ Q (C (S i))) -> (forall i, P (C i) -> sched i = t -> Q (C (S i))) -> leads P Q.
    Proof.
      intros Lt A B i Pi. destruct (fair t Lt i) as (i1 & L1 & E1). remember (i1 - i) as d. revert i Pi L1 Heqd.
      induction d as [|d IH]; intros i Pi L1 D.
      - replace i1 with i in E1 by lia. exists (S i). split; auto.
      - destruct (Nat.eq_dec (sched i) t) as [E|E]. exists (S i). split; auto. destruct (A i Pi E) as [H|H]; [|exists (S i); auto].
        destruct (IH (S i) H ltac:(lia) ltac:(lia)) as (i2 & L2 & H2). exists i2. split; auto. lia.
    Qed.

    (** facts on single steps *)
    Lemma worker_main t c : c_m M (worker_step M n jobs t c) = c_m M c.
    Proof. unfold worker_step. repeat match goal with |- context [match ?x with _ => _ end] => destruct x; simpl; auto end. Qed.
    Lemma worker_other t u c : u <> t -> c_w M (worker_step M n jobs t c) u = c_w M c u.
    Proof.
      intros Ne. unfold worker_step.
      assert (OW : forall c w, c_w M (set_w M c t w) u = c_w M c u) by (intros; simpl; destruct (Nat.eqb_spec u t); congruence).
      destruct (w_pc (c_w M c t)); auto. destruct (w_slot (c_w M c t)); auto. destruct (proc M jobs j k i); auto. rewrite OW. auto.
    Qed.
    Lemma worker_life t c : c_life M (worker_step M n jobs t c) = c_life M c.
    Proof. unfold worker_step. repeat match goal with |- context [match ?x with _ => _ end] => destruct x; simpl; auto end. Qed.

    (** progress of the owner when its next position does not depend on the workers *)
    Lemma main_moves X Y : (forall c, c_m M c = X -> c_m M (main_step M n jobs c) = Y) -> leads (fun c => c_m M c = X) (fun c => c_m M c = Y).
    Proof.
      intros H. apply (ensures 0). lia.
      - intros i E N. left. rewrite config_S. unfold Pool.step. destruct (Nat.eqb_spec (sched i) 0); [contradiction|]. destruct (sched i <? n); auto. rewrite worker_main. auto.
      - intros i E N. rewrite config_S, N. unfold Pool.step. simpl. auto.
    Qed.
    Notation at_main X := (fun c => c_m M c = X).

    Lemma leads_new k : 1 <= k <= n -> leads (at_main (MNew k)) (at_main (enter M jobs 0)).
    Proof.
      intros L. remember (n - k) as d. revert k L Heqd. induction d as [|d IH]; intros k L D.
      - apply main_moves. intros c E. unfold main_step. rewrite E. destruct (Nat.ltb_spec k n); auto. lia.
      - eapply leads_trans. apply (main_moves (MNew k) (MInit k)). { intros c E. unfold main_step. rewrite E. destruct (Nat.ltb_spec k n); auto. lia. }
        eapply leads_trans. apply (main_moves (MInit k) (MNew (S k))). { intros c E. unfold main_step. rewrite E. auto. }
        apply IH; lia.
    Qed.
    Lemma leads_pub j k : 1 <= k <= n -> leads (at_main (MPub j k)) (at_main (MRun j 0 0)).
    Proof.
      intros L. remember (n - k) as d. revert k L Heqd. induction d as [|d IH]; intros k L D.
      - apply main_moves. intros c E. unfold main_step. rewrite E. destruct (Nat.ltb_spec k n); auto. lia.
      - eapply leads_trans. apply (main_moves (MPub j k) (MPub j (S k))). { intros c E. unfold main_step. rewrite E. destruct (Nat.ltb_spec k n); auto. lia. }
        apply IH; lia.
    Qed.
    (** number of steps to the end of the program of a thread *)
    Definition biggest (j : nat) : nat := fold_right Nat.max 0 (map (@length _) (job j)).
    Lemma biggest_le j k : length (acts j k) <= biggest j.
    Proof.
      unfold acts, biggest. generalize (job j). intros l. revert k. induction l as [|x l IH]; intros [|k]; simpl; try lia. specialize (IH k). lia.
    Qed.
    Definition remaining (j k i : nat) : nat := (length (job j) - k) * S (biggest j) + (biggest j - i).
    Lemma remaining_next j k i : k < length (job j) -> remaining j (k + n) 0 < remaining j k i.
    Proof.
      intros L. unfold remaining. assert (length (job j) - (k + n) <= length (job j) - k - 1) by lia.
      assert ((length (job j) - (k + n)) * S (biggest j) <= (length (job j) - k - 1) * S (biggest j)) by (apply Nat.mul_le_mono_r; auto).
      replace (length (job j) - k) with (S (length (job j) - k - 1)) by lia. rewrite Nat.mul_succ_l. lia.
    Qed.
    Lemma proc_cases j k i : match proc M jobs j k i with
      | PAct _ a => k < length (job j) /\ i < length (acts j k) | PNext _ => k < length (job j) | PEnd _ => True end.
    Proof.
      unfold proc. destruct (nth_error (job j) k) as [t|] eqn:E; auto. assert (k < length (job j)) by (apply nth_error_Some; congruence).
      destruct (nth_error t i) eqn:Q; auto. split; auto. unfold acts. rewrite (nth_error_nth (job j) k [] E : nth k (job j) [] = t). apply nth_error_Some. congruence.
    Qed.
    Lemma leads_run j : forall d k i, remaining j k i < d -> leads (at_main (MRun j k i)) (at_main (MWait j 1)).
    Proof.
      induction d as [|d IH]; intros k i D; [lia|]. pose proof (proc_cases j k i) as PC. destruct (proc M jobs j k i) eqn:E.
      - eapply leads_trans. apply (main_moves (MRun j k i) (MRun j k (S i))). { intros c Ec. unfold main_step. rewrite Ec, E. auto. }
        apply IH. pose proof (biggest_le j k). unfold remaining in *. lia.
      - eapply leads_trans. apply (main_moves (MRun j k i) (MRun j (k + n) 0)). { intros c Ec. unfold main_step. rewrite Ec, E. auto. }
        apply IH. pose proof (remaining_next j k i PC). lia.
      - apply (main_moves (MRun j k i) (MWait j 1)). intros c Ec. unfold main_step. rewrite Ec, E. auto.
    Qed.

    (** while the owner waits, every worker goes to the end of its program *)
    Definition waiting (j : nat) c : Prop := exists k, c_m M c = MWait j k.
    Notation next j := (at_main (enter M jobs (S j))).
    Lemma waiting_main j c : waiting j c -> let c' := main_step M n jobs c in
      (waiting j c' /\ (forall t, c_w M c' t = c_w M c t)) \/ c_m M c' = enter M jobs (S j).
    Proof.
      intros [k E]. unfold main_step. rewrite E. destruct (k <? n); [|right; auto]. left.
      destruct (w_slot (c_w M c k)); simpl; split; auto; eexists; simpl; eauto.
    Qed.
    Lemma wait_stable j t i : waiting j (C i) -> sched i <> t ->
      (waiting j (C (S i)) /\ c_w M (C (S i)) t = c_w M (C i) t) \/ next j (C (S i)).
    Proof.
      intros W N. rewrite config_S. unfold Pool.step. destruct (Nat.eqb_spec (sched i) 0) as [E|E].
      - destruct (waiting_main j (C i) W) as [[A B]|A]; auto.
      - left. destruct (sched i <? n); auto. split. destruct W as [k W]. exists k. rewrite worker_main. auto. apply worker_other. auto.
    Qed.
    Lemma wait_worker j t i : is_worker t -> waiting j (C i) -> sched i = t -> waiting j (C (S i)) /\ C (S i) = worker_step M n jobs t (C i).
    Proof.
      intros [W1 W2] W E. rewrite config_S, E. unfold Pool.step. destruct (Nat.eqb_spec t 0); [lia|]. destruct (Nat.ltb_spec t n); [|lia]. split; auto.
      destruct W as [k W]. exists k. rewrite worker_main. auto.
    Qed.
    Lemma wait_moves j t (P Q : worker -> Prop) : is_worker t ->
      (forall c, phase c -> waiting j c -> P (c_w M c t) -> Q (c_w M (worker_step M n jobs t c) t)) ->
      leads (fun c => waiting j c /\ P (c_w M c t)) (fun c => next j c \/ (waiting j c /\ Q (c_w M c t))).
    Proof.
      intros Wt H. apply (ensures t). destruct Wt; lia.
      - intros i [W Pi] N. destruct (wait_stable j t i W N) as [[A B]|A]; auto. left. rewrite B. auto.
      - intros i [W Pi] E. destruct (wait_worker j t i Wt W E) as [A B]. right. split; auto. rewrite B. apply H; auto. apply (pi_phase m0), config_inv.
    Qed.
    Lemma leads_skip j (P Q R : config -> Prop) : leads P (fun c => next j c \/ Q c) -> leads Q (fun c => next j c \/ R c) -> leads P (fun c => next j c \/ R c).
    Proof.
      intros A B. eapply leads_trans; [exact A|]. apply leads_or; auto. apply leads_now. auto.
    Qed.
    Lemma set_w_same c t w : c_w M (set_w M c t w) t = w.
    Proof. simpl. rewrite Nat.eqb_refl. auto. Qed.
    Lemma wait_life j t c : is_worker t -> phase c -> waiting j c -> c_life M c = true /\ j = length (c_past M c) /\ exists p, wact j t (c_w M c t) p.
    Proof.
      intros Wt P [k E]. unfold phase in P. rewrite E in P. destruct P as (-> & A & B & D & P0 & P & _). split; auto. split; auto. eexists. apply P; auto.
    Qed.
    Lemma leads_worker_run j t : is_worker t -> forall d k i, remaining j k i < d ->
      leads (fun c => waiting j c /\ c_w M c t = mkW (WRun j k i) (Ptr j)) (fun c => next j c \/ (waiting j c /\ c_w M c t = mkW WStore (Ptr j))).
    Proof.
      intros Wt. induction d as [|d IH]; intros k i D; [lia|]. pose proof (proc_cases j k i) as PC. destruct (proc M jobs j k i) eqn:E.
      - apply leads_skip with (Q := fun c => waiting j c /\ c_w M c t = mkW (WRun j k (S i)) (Ptr j)).
        + apply (wait_moves j t (fun w => w = _) (fun w => w = _)); auto. intros c _ _ Ec. unfold worker_step. rewrite Ec. simpl. rewrite E. simpl. rewrite Nat.eqb_refl. auto.
        + apply IH. pose proof (biggest_le j k). unfold remaining in *. lia.
      - apply leads_skip with (Q := fun c => waiting j c /\ c_w M c t = mkW (WRun j (k + n) 0) (Ptr j)).
        + apply (wait_moves j t (fun w => w = _) (fun w => w = _)); auto. intros c _ _ Ec. unfold worker_step. rewrite Ec. simpl. rewrite E. simpl. rewrite Nat.eqb_refl. auto.
        + apply IH. pose proof (remaining_next j k i PC). lia.
      - apply (wait_moves j t (fun w => w = _) (fun w => w = _)); auto. intros c _ _ Ec. unfold worker_step. rewrite Ec. simpl. rewrite E. simpl. rewrite Nat.eqb_refl. auto.
    Qed.
    Lemma leads_store j t : is_worker t -> leads (fun c => waiting j c /\ c_w M c t = mkW WStore (Ptr j)) (fun c => next j c \/ (waiting j c /\ w_slot (c_w M c t) = Null)).
    Proof.
      intros Wt. apply (wait_moves j t (fun w => w = _) (fun w => w_slot w = Null)); auto. intros c _ _ Ec. unfold worker_step. rewrite Ec. simpl. rewrite Nat.eqb_refl. auto.
    Qed.
    Lemma leads_run' j t k i : is_worker t -> leads (fun c => waiting j c /\ c_w M c t = mkW (WRun j k i) (Ptr j)) (fun c => next j c \/ (waiting j c /\ w_slot (c_w M c t) = Null)).
    Proof. intros Wt. eapply leads_skip. apply (leads_worker_run j t Wt (S (remaining j k i))). lia. apply leads_store; auto. Qed.
    Lemma leads_load j t : is_worker t -> leads (fun c => waiting j c /\ c_w M c t = mkW WLoad (Ptr j)) (fun c => next j c \/ (waiting j c /\ w_slot (c_w M c t) = Null)).
    Proof.
      intros Wt. eapply leads_skip; [|apply (leads_run' j t t 0 Wt)]. apply (wait_moves j t (fun w => w = _) (fun w => w = _)); auto.
      intros c _ _ Ec. unfold worker_step. rewrite Ec. simpl. rewrite Nat.eqb_refl. auto.
    Qed.
    Lemma leads_life j t : is_worker t -> leads (fun c => waiting j c /\ c_w M c t = mkW WLife (Ptr j)) (fun c => next j c \/ (waiting j c /\ w_slot (c_w M c t) = Null)).
    Proof.
      intros Wt. eapply leads_skip; [|apply (leads_load j t Wt)]. apply (wait_moves j t (fun w => w = _) (fun w => w = _)); auto.
      intros c P W Ec. destruct (wait_life j t c Wt P W) as (Li & _). unfold worker_step. rewrite Ec. simpl. rewrite Nat.eqb_refl, Li. auto.
    Qed.
    Lemma leads_null j t : is_worker t -> leads (waiting j) (fun c => next j c \/ (waiting j c /\ w_slot (c_w M c t) = Null)).
    Proof.
      intros Wt i W. pose proof (pi_phase _ _ (config_inv i)) as P. destruct (wait_life j t _ Wt P W) as (_ & Ej & p & A).
      assert (EW : forall a b, w_pc (c_w M (C i) t) = a -> w_slot (c_w M (C i) t) = b -> c_w M (C i) t = mkW a b) by (intros a b <- <-; destruct (c_w M (C i) t); auto).
      destruct A as [(S & [Q|Q] & _)|[(S & k & i' & Q & _)|[(S & Q & _)|((S & _) & _)]]].
      - apply (leads_life j t Wt). auto.
      - apply (leads_load j t Wt). auto.
      - apply (leads_run' j t k i' Wt). auto.
      - apply (leads_store j t Wt). auto.
      - exists i. auto.
    Qed.
    (** a worker that has finished stays so *)
    Lemma null_stays j t i : is_worker t -> waiting j (C i) -> w_slot (c_w M (C i) t) = Null ->
      next j (C (S i)) \/ (waiting j (C (S i)) /\ w_slot (c_w M (C (S i)) t) = Null).
    Proof.
      intros Wt W S. destruct (Nat.eq_dec (sched i) t) as [E|E].
      - right. destruct (wait_worker j t i Wt W E) as [A B]. split; auto. rewrite B. pose proof (pi_phase _ _ (config_inv i)) as P.
        destruct (wait_life j t _ Wt P W) as (_ & Ej & p & Ac). unfold worker_step.
        destruct Ac as [(S' & _)|[(S' & _)|[(S' & _)|((_ & [Q|Q]) & _)]]]; try congruence; rewrite Q; try rewrite S; rewrite set_w_same; auto.
      - destruct (wait_stable j t i W E) as [[A B]|A]; auto. right. rewrite B. auto.
    Qed.
    Definition nulls (j m : nat) c : Prop := waiting j c /\ forall t, is_worker t -> t < m -> w_slot (c_w M c t) = Null.
    Lemma nulls_stay j m i : nulls j m (C i) -> next j (C (S i)) \/ nulls j m (C (S i)).
    Proof.
      intros [W H]. destruct (Nat.eq_dec (sched i) 0) as [E|E].
      - destruct (waiting_main j (C i) W) as [[A B]|A]; rewrite config_S, E; unfold Pool.step; simpl; auto. right. split; auto. intros t Wt L. rewrite B. auto.
      - assert (WW : waiting j (C (S i))).
        { rewrite config_S. unfold Pool.step. destruct (Nat.eqb_spec (sched i) 0); [contradiction|]. destruct (sched i <? n); auto. destruct W as [k W]. exists k. rewrite worker_main. auto. }
        right. split; auto. intros t Wt L. destruct (null_stays j t i Wt W (H t Wt L)) as [A|[_ A]]; auto.
        destruct WW as [k WW]. rewrite WW in A. unfold enter in A. destruct (S j <? length jobs); discriminate.
    Qed.
    Lemma nulls_until j m : forall d i, nulls j m (C i) -> (exists i', i <= i' /\ next j (C i')) \/ nulls j m (C (i + d)).
    Proof.
      induction d as [|d IH]; intros i H. rewrite Nat.add_0_r; auto. destruct (IH i H) as [A|A]; auto. destruct (nulls_stay j m _ A) as [B|B].
      - left. exists (S (i + d)). split; auto. lia.
      - right. rewrite Nat.add_succ_r. auto.
    Qed.
    Lemma leads_nulls j : forall m, leads (waiting j) (fun c => next j c \/ nulls j m c).
    Proof.
      induction m as [|m IH]. apply leads_now. intros i W. right. split; auto. intros t [L _] L'. lia.
      intros i W. destruct (IH i W) as (i1 & L1 & [A|A]). exists i1; auto.
      destruct (Nat.eq_dec m 0) as [->|Nm]. { exists i1. split; auto. right. split. apply A. intros t [L _] L'. lia. }
      destruct (Nat.lt_ge_cases m n) as [Lm|Lm].
      - assert (Wm : is_worker m) by (split; lia). destruct (leads_null j m Wm i1 (proj1 A)) as (i2 & L2 & [B|[B1 B2]]).
        + exists i2. split; auto. lia.
        + destruct (nulls_until j m (i2 - i1) i1 A) as [(i3 & L3 & B)|B]. exists i3. split; auto. lia.
          replace (i1 + (i2 - i1)) with i2 in B by lia. exists i2. split; [lia|]. right. split; auto. intros t Wt L. destruct (Nat.eq_dec t m) as [->|]; auto. apply B; auto. lia.
      - exists i1. split; auto. right. split. apply A. intros t Wt L. apply A; auto. destruct Wt; lia.
    Qed.
    (** then the owner sees that all have finished *)
    Lemma scan j k : 1 <= k <= n -> leads (fun c => c_m M c = MWait j k /\ nulls j n c) (next j).
    Proof.
      intros L. remember (n - k) as d. revert k L Heqd. induction d as [|d IH]; intros k L D.
      - apply (ensures 0). lia.
        + intros i [E W] N. destruct (nulls_stay j n i W) as [A|A]; auto. left. split; auto. rewrite config_S. unfold Pool.step.
          destruct (Nat.eqb_spec (sched i) 0); [contradiction|]. destruct (sched i <? n); auto. rewrite worker_main. auto.
        + intros i [E W] N. rewrite config_S, N. unfold Pool.step, main_step. simpl. rewrite E. destruct (Nat.ltb_spec k n); [lia|]. auto.
      - apply leads_trans with (Q := fun c => next j c \/ (c_m M c = MWait j (S k) /\ nulls j n c)).
        + apply (ensures 0). lia.
          * intros i [E W] N. destruct (nulls_stay j n i W) as [A|A]; auto. left. split; auto. rewrite config_S. unfold Pool.step.
            destruct (Nat.eqb_spec (sched i) 0); [contradiction|]. destruct (sched i <? n); auto. rewrite worker_main. auto.
          * intros i [E W] N. destruct (nulls_stay j n i W) as [A|A]; auto. right. split; auto. rewrite config_S, N. unfold Pool.step, main_step. simpl. rewrite E.
            destruct (Nat.ltb_spec k n); [|lia]. rewrite (proj2 W k ltac:(split; lia) ltac:(lia)). auto.
        + apply leads_or. apply leads_refl. apply IH; lia.
    Qed.
    Lemma leads_wait j : leads (waiting j) (next j).
    Proof.
      intros i W. destruct (leads_nulls j n i W) as (i1 & L1 & [A|A]). exists i1; auto.
      pose proof (proj1 A) as [k E]. assert (K : 1 <= k <= n). { pose proof (pi_phase _ _ (config_inv i1)) as P. unfold phase in P. rewrite E in P. apply P. }
      destruct (scan j k K i1 (conj E A)) as (i2 & L2 & H). exists i2. split; auto. lia.
    Qed.
    Lemma leads_jobs : forall d j, length jobs <= j + d -> leads (at_main (enter M jobs j)) (at_main MKill).
    Proof.
      induction d as [|d IH]; intros j L; unfold enter at 1; destruct (Nat.ltb_spec j (length jobs)); try lia; try apply leads_refl.
      eapply leads_trans; [|apply (IH (S j)); lia]. eapply leads_trans. apply leads_pub. lia. eapply leads_trans. apply (leads_run j (S (remaining j 0 0))). lia.
      eapply leads_trans; [|apply leads_wait]. apply leads_now. intros i E. exists 1. auto.
    Qed.

    (** the destructor *)
    Definition joining c : Prop := exists k, c_m M c = MJoin k.
    Definition exited (m : nat) c : Prop := forall t, is_worker t -> t < m -> w_pc (c_w M c t) = WExit.
    Lemma exit_stays t c : w_pc (c_w M c t) = WExit -> worker_step M n jobs t c = c.
    Proof. intros E. unfold worker_step. rewrite E. auto. Qed.
    Lemma join_main c : joining c -> (joining (main_step M n jobs c) \/ c_m M (main_step M n jobs c) = MDone) /\ c_w M (main_step M n jobs c) = c_w M c.
    Proof.
      intros [k E]. unfold main_step. rewrite E. destruct (k <? n); [|simpl; auto]. destruct (w_pc (c_w M c k)); simpl; split; auto; left; eexists; simpl; eauto.
    Qed.
    Lemma exited_stays m i : joining (C i) -> exited m (C i) -> (joining (C (S i)) \/ c_m M (C (S i)) = MDone) /\ exited m (C (S i)).
    Proof.
      intros J X. rewrite config_S. unfold Pool.step. destruct (Nat.eqb_spec (sched i) 0).
      - destruct (join_main (C i) J) as [A B]. split; auto. unfold exited. rewrite B. auto.
      - destruct (Nat.ltb_spec (sched i) n); auto. split. left. destruct J as [k J]. exists k. rewrite worker_main. auto.
        intros t Wt L. destruct (Nat.eq_dec t (sched i)) as [E|E]. rewrite <- E. rewrite exit_stays; auto. rewrite worker_other; auto.
    Qed.
    Lemma done_stays i : c_m M (C i) = MDone -> c_m M (C (S i)) = MDone.
    Proof.
      intros E. rewrite config_S. unfold Pool.step. destruct (Nat.eqb_spec (sched i) 0). unfold main_step. rewrite E. auto. destruct (sched i <? n); auto. rewrite worker_main. auto.
    Qed.
    Notation done := (at_main MDone).
    Lemma join_moves t (P Q : worker -> Prop) : is_worker t -> (forall c, joining c -> phase c -> P (c_w M c t) -> Q (c_w M (worker_step M n jobs t c) t)) ->
      leads (fun c => joining c /\ P (c_w M c t)) (fun c => done c \/ (joining c /\ Q (c_w M c t))).
    Proof.
      intros Wt H. apply (ensures t). destruct Wt; lia.
      - intros i [J Pi] N. rewrite config_S. unfold Pool.step. destruct (Nat.eqb_spec (sched i) 0).
        + destruct (join_main (C i) J) as [[A|A] B]; auto. left. rewrite B. auto.
        + left. destruct (sched i <? n); auto. rewrite worker_other by auto. split; auto. destruct J as [k J]. exists k. rewrite worker_main. auto.
      - intros i [J Pi] N. right. rewrite config_S, N. unfold Pool.step. destruct Wt. destruct (Nat.eqb_spec t 0); [lia|]. destruct (Nat.ltb_spec t n); [|lia].
        split. destruct J as [k J]. exists k. rewrite worker_main. auto. apply H; auto. apply (pi_phase m0), config_inv.
    Qed.
    Lemma join_leaving t c : is_worker t -> joining c -> phase c -> c_life M c = false /\ leaving (c_w M c t).
    Proof. intros Wt [k J] P. unfold phase in P. rewrite J in P. destruct P as (_ & _ & L & _ & P). split; auto. apply P; auto. Qed.
    Lemma leads_exit t : is_worker t -> leads joining (fun c => done c \/ (joining c /\ w_pc (c_w M c t) = WExit)).
    Proof.
      intros Wt. assert (A : leads (fun c => joining c /\ w_pc (c_w M c t) = WLife) (fun c => done c \/ (joining c /\ w_pc (c_w M c t) = WExit))).
      { apply (join_moves t (fun w => w_pc w = WLife) (fun w => w_pc w = WExit)); auto. intros c J P E. destruct (join_leaving t c Wt J P) as [L _]. unfold worker_step. rewrite E, set_w_same, L. auto. }
      assert (B : leads (fun c => joining c /\ w_pc (c_w M c t) = WLoad) (fun c => done c \/ (joining c /\ w_pc (c_w M c t) = WExit))).
      { eapply leads_trans. apply (join_moves t (fun w => w_pc w = WLoad) (fun w => w_pc w = WLife)); auto.
        - intros c J P E. destruct (join_leaving t c Wt J P) as [L [S _]]. unfold worker_step. rewrite E, S, set_w_same. auto.
        - apply leads_or; auto. apply leads_now; auto. }
      intros i J. destruct (join_leaving t _ Wt J (pi_phase _ _ (config_inv i))) as [L [S [E|[E|E]]]]; auto. exists i; auto.
    Qed.
    Lemma exited_until m : forall d i, joining (C i) -> exited m (C i) -> (exists i', i <= i' /\ done (C i')) \/ (joining (C (i + d)) /\ exited m (C (i + d))).
    Proof.
      induction d as [|d IH]; intros i J X. rewrite Nat.add_0_r; auto. destruct (IH i J X) as [A|[A B]]; auto. destruct (exited_stays m _ A B) as [[D|D] E].
      - right. rewrite Nat.add_succ_r. auto.
      - left. exists (S (i + d)). split; auto. lia.
    Qed.
    Lemma leads_exited : forall m, leads joining (fun c => done c \/ (joining c /\ exited m c)).
    Proof.
      induction m as [|m IH]. apply leads_now. intros i J. right. split; auto. intros t _ L. lia.
      intros i J. destruct (IH i J) as (i1 & L1 & [A|[A B]]). exists i1; auto.
      destruct (Nat.eq_dec m 0) as [->|Nm]. { exists i1. split; auto. right. split; auto. intros t [L _] L'. lia. }
      destruct (Nat.lt_ge_cases m n) as [Lm|Lm].
      - destruct (leads_exit m ltac:(split; lia) i1 A) as (i2 & L2 & [D|[D1 D2]]). exists i2. split; auto. lia.
        destruct (exited_until m (i2 - i1) i1 A B) as [(i3 & L3 & E)|[E1 E2]]. exists i3. split; auto. lia. replace (i1 + (i2 - i1)) with i2 in * by lia.
        exists i2. split; [lia|]. right. split; auto. intros t Wt L. destruct (Nat.eq_dec t m) as [->|]; auto. apply E2; auto. lia.
      - exists i1. split; auto. right. split; auto. intros t Wt L. apply B; auto. destruct Wt; lia.
    Qed.
    Lemma scan_join k : 1 <= k <= n -> leads (fun c => c_m M c = MJoin k /\ exited n c) done.
    Proof.
      intros L. remember (n - k) as d. revert k L Heqd. induction d as [|d IH]; intros k L D.
      - apply (ensures 0). lia.
        + intros i [E X] N. left. destruct (exited_stays n i (ex_intro _ k E) X) as [_ X']. split; auto. rewrite config_S. unfold Pool.step.
          destruct (Nat.eqb_spec (sched i) 0); [contradiction|]. destruct (sched i <? n); auto. rewrite worker_main. auto.
        + intros i [E X] N. rewrite config_S, N. unfold Pool.step, main_step. simpl. rewrite E. destruct (Nat.ltb_spec k n); [lia|]. auto.
      - eapply leads_trans; [|apply (IH (S k)); lia]. apply (ensures 0). lia.
        + intros i [E X] N. left. destruct (exited_stays n i (ex_intro _ k E) X) as [_ X']. split; auto. rewrite config_S. unfold Pool.step.
          destruct (Nat.eqb_spec (sched i) 0); [contradiction|]. destruct (sched i <? n); auto. rewrite worker_main. auto.
        + intros i [E X] N. destruct (exited_stays n i (ex_intro _ k E) X) as [_ X']. split; auto. rewrite config_S, N. unfold Pool.step, main_step. simpl. rewrite E.
          destruct (Nat.ltb_spec k n); [|lia]. rewrite (X k ltac:(split; lia) ltac:(lia)). auto.
    Qed.
    Theorem fair_done : exists i, c_m M (C i) = MDone.
    Proof.
      assert (A : leads (at_main (MNew 1)) joining).
      { eapply leads_trans. apply (leads_new 1). lia. eapply leads_trans. apply (leads_jobs (length jobs)). lia.
        eapply leads_trans. apply (main_moves MKill (MJoin 1)). { intros c E. unfold main_step. rewrite E. auto. } apply leads_now. intros i E. exists 1. auto. }
      destruct (A 0 eq_refl) as (i1 & _ & J). destruct (leads_exited n i1 J) as (i2 & _ & [D|[[k D] X]]). exists i2; auto.
      assert (K : 1 <= k <= n). { pose proof (pi_phase _ _ (config_inv i2)) as P. unfold phase in P. rewrite D in P. apply P. }
      destruct (scan_join k K i2 (conj D X)) as (i3 & _ & E). exists i3. auto.
    Qed.
  End Fair.
End Proofs.
