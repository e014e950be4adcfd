(** The sampling tasks on the pool: every interleaving of the accesses of the
    tasks of a batch gives the state of the sequential execution *)
From Coq Require Import String List Arith Bool Lia Permutation.
From Verif Require Import Res Num Categoric Func Special Graph GraphLemmas Belief BPRun Pool PoolProofs PoolComm
  Gibbs GibbsChain.
Import ListNotations.
Open Scope nat_scope.

(** {1 Tasks whose accesses commute} *)
Section Gen.
  Variable M : Type.
  Variable eqM : M -> M -> Prop.
  Hypothesis eqM_refl : forall m, eqM m m.
  Hypothesis eqM_sym : forall a b, eqM a b -> eqM b a.
  Hypothesis eqM_trans : forall a b c, eqM a b -> eqM b c -> eqM a c.
  Variable T : Type.
  Variable code : T -> task M.
  Variable ind : T -> T -> Prop.
  Hypothesis ind_sym : forall x y, ind x y -> ind y x.
  Hypothesis code_proper : forall x f t m m', In f (code x) -> eqM m m' -> eqM (f t m) (f t m').
  Hypothesis code_comm : forall x y f g a b m, In f (code x) -> In g (code y) -> ind x y -> a <> b -> eqM (f a (g b m)) (g b (f a m)).
  Variable n : nat.
  Hypothesis Hn : 1 <= n.
  Variable bs : list (list T).
  Hypothesis IND : forall b, In b bs -> ForallOrdPairs ind b.
  Definition gen_jobs : list (tasks M) := map (map code) bs.
  Definition gen_batch (j : nat) : list T := nth j bs [].
  Definition gen_task (tid : nat) (a : task M) (m : M) : M := fold_left (fun m f => f tid m) a m.
  Fixpoint gen_all (k : nat) (l : list T) (m : M) : M :=
    match l with [] => m | x :: r => gen_all (S k) r (gen_task (k mod n) (code x) m) end.

  Lemma gen_job j : job M gen_jobs j = map code (gen_batch j).
  Proof. unfold job, gen_jobs, gen_batch. change (@nil (task M)) with (map code []). rewrite map_nth. auto. Qed.
  Lemma gen_acts j k : acts M gen_jobs j k = match nth_error (gen_batch j) k with Some t => code t | None => [] end.
  Proof.
    unfold acts. rewrite gen_job. destruct (nth_error (gen_batch j) k) as [t|] eqn:E.
    - apply nth_error_nth. rewrite nth_error_map, E. auto.
    - apply nth_overflow. rewrite map_length. apply nth_error_None. auto.
  Qed.
  Lemma gen_effect_task j k u m : effect M gen_jobs j (map (pair u) (task_entries M gen_jobs j k)) m = gen_task u (acts M gen_jobs j k) m.
  Proof.
    unfold effect, task_entries, gen_task.
    assert (G : forall a p m, acts M gen_jobs j k = p ++ a ->
      fold_left (effect1 M gen_jobs j) (map (pair u) (map (pair k) (seq (length p) (length a)))) m = fold_left (fun m f => f u m) a m).
    { induction a as [|f a IH]; intros p m0 E; simpl; auto. unfold effect1 at 2. simpl. rewrite E, nth_error_app2, Nat.sub_diag by auto. simpl.
      specialize (IH (p ++ [f]) (f u m0)). rewrite app_length in IH. simpl in IH. rewrite Nat.add_1_r in IH. apply IH. rewrite E, <- app_assoc. auto. }
    apply (G _ [] m). auto.
  Qed.
  Lemma gen_in_order j m : effect M gen_jobs j (in_order M n gen_jobs j) m = gen_all 0 (gen_batch j) m.
  Proof.
    unfold in_order. rewrite gen_job, map_length.
    assert (G : forall ts p m, gen_batch j = p ++ ts ->
      effect M gen_jobs j (flat_map (fun k => map (pair (k mod n)) (task_entries M gen_jobs j k)) (seq (length p) (length ts))) m = gen_all (length p) ts m).
    { induction ts as [|t ts IH]; intros p m0 E; simpl; auto. unfold effect in *. rewrite fold_left_app.
      change (fold_left (effect1 M gen_jobs j) (map (pair (length p mod n)) (task_entries M gen_jobs j (length p))) m0) with
        (effect M gen_jobs j (map (pair (length p mod n)) (task_entries M gen_jobs j (length p))) m0).
      rewrite gen_effect_task, gen_acts, E, nth_error_app2, Nat.sub_diag by auto. simpl.
      specialize (IH (p ++ [t])). rewrite app_length in IH. simpl in IH. rewrite Nat.add_1_r in IH. apply IH. rewrite E, <- app_assoc. auto. }
    apply (G (gen_batch j) []). auto.
  Qed.
  Lemma ord_pairs_nth (l : list T) : ForallOrdPairs ind l -> forall i k x y, i <> k -> nth_error l i = Some x -> nth_error l k = Some y -> ind x y.
  Proof.
    induction 1 as [|z l F O IH]; intros [|i] [|k] x y D Hx Hy; simpl in *; try discriminate; try lia.
    - injection Hx as <-. rewrite Forall_forall in F. apply F. eapply nth_error_In; eauto.
    - injection Hy as <-. rewrite Forall_forall in F. apply ind_sym, F. eapply nth_error_In; eauto.
    - eapply (IH i k); eauto.
  Qed.
  Lemma gen_interleaving j l m : interleaving M n gen_jobs j l -> eqM (effect M gen_jobs j l m) (gen_all 0 (gen_batch j) m).
  Proof.
    intros I. rewrite <- gen_in_order.
    set (valid := fun e : entry => fst e < n /\ fst (snd e) mod n = fst e /\ fst (snd e) < length (job M gen_jobs j) /\ snd (snd e) < length (acts M gen_jobs j (fst (snd e)))).
    assert (V : forall e, valid e -> exists x f, nth_error (gen_batch j) (fst (snd e)) = Some x /\ In f (code x) /\ forall m, effect1 M gen_jobs j m e = f (fst e) m).
    { intros [u [k i]] (V1 & V2 & V3 & V4). simpl in *. rewrite gen_acts in V4. destruct (nth_error (gen_batch j) k) as [x|] eqn:Et; [|simpl in V4; lia].
      destruct (nth_error (code x) i) as [f|] eqn:Ef; [|apply nth_error_None in Ef; lia].
      exists x, f. split; auto. split. eapply nth_error_In; eauto. intros m0. unfold effect1. simpl. rewrite gen_acts, Et, Ef. auto. }
    apply (same_effect M eqM eqM_refl eqM_sym eqM_trans (fun e m => effect1 M gen_jobs j m e) valid).
    - intros e m1 m2 Ve E. destruct (V e Ve) as (x & f & _ & L & Q). rewrite !Q. eapply code_proper; eauto.
    - intros e f m1 Ve Vf D. destruct (V e Ve) as (x1 & c1 & E1 & L1 & Q1). destruct (V f Vf) as (x2 & c2 & E2 & L2 & Q2). rewrite !Q1, !Q2.
      eapply code_comm; eauto. assert (FB : ForallOrdPairs ind (gen_batch j)).
      { unfold gen_batch. destruct (nth_in_or_default j bs []) as [Ib|Eb]; auto. rewrite Eb. constructor. }
      apply (ord_pairs_nth _ FB (fst (snd e)) (fst (snd f))); auto.
      intros E. apply D. destruct Ve as (_ & Ve & _), Vf as (_ & Vf & _). rewrite <- Ve, <- Vf. f_equal. auto.
    - apply Forall_forall. intros e Ie. apply (interleaving_valid M n gen_jobs Hn j l e I Ie).
    - apply Forall_forall. intros e Ie. apply (interleaving_valid M n gen_jobs Hn j _ e (in_order_interleaving M n gen_jobs Hn j) Ie).
    - intros t. destruct (Nat.ltb_spec t n) as [Lt|Ge].
      + rewrite (proj2 I t Lt), (proj2 (in_order_interleaving M n gen_jobs Hn j) t Lt). auto.
      + rewrite !proj_none; auto.
        * intros e Ie. pose proof (proj1 (in_order_interleaving M n gen_jobs Hn j) e Ie). lia.
        * intros e Ie. pose proof (proj1 I e Ie). lia.
  Qed.
End Gen.

Section GibbsPool.
  Context {N : num}.
  Variable H : nat -> func N.
  Variable draw : nat -> nat -> N.
  Notation snode := (snode (N:=N)).

  (** what a thread keeps for itself while it executes a sampling task
      (GibbsSampler.cpp:86-100): the values of the dependencies read so far, and
      how many numbers its engine has drawn (GibbsSampler.cpp:88-90: one engine
      for each thread) *)
  Record slocal := mkSL { sl_vals : list nat; sl_cnt : nat }.
  (** the memory shared by the tasks; [sm_bad]: a task did something undefined *)
  Record smemory := mkSM { sm_comb : list nat; sm_loc : nat -> slocal; sm_bad : bool }.

  (** the value drawn, from the values read (GibbsSampler.cpp:86-100) *)
  Definition sample_from (nd : snode) (vals : list nat) (x : N) : res nat :=
    let* evs := rmap (fun dk => evidence_factor (H (d_fac (fst dk))) (d_sender (fst dk)) (snd dk)) (combine (sn_deps nd) vals) in
    match merged_unaries (Some (sn_static nd) :: map Some evs) with
    | Ok m => let* p := get_probabilities m in Ok (sample_discrete p x)
    | Nan => let* v := vget (f_vars (sn_static nd)) 0 in Ok (vsize v - 1)
    | Throw => Throw
    | UB => UB
    | Loop => Loop
    end.
  (** the value of a dependency is read (GibbsSampler.cpp:93-96) *)
  Definition read_value (q : nat) : nat -> smemory -> smemory := fun tid m =>
    match nth_error (sm_comb m) q with
    | Some k => mkSM (sm_comb m) (fupd (sm_loc m) tid (mkSL (sl_vals (sm_loc m tid) ++ [k]) (sl_cnt (sm_loc m tid)))) (sm_bad m)
    | None => mkSM (sm_comb m) (sm_loc m) true
    end.
  (** the value is drawn and written (GibbsSampler.cpp:97-99) *)
  Definition write_value (nd : snode) : nat -> smemory -> smemory := fun tid m =>
    match sample_from nd (sl_vals (sm_loc m tid)) (draw tid (sl_cnt (sm_loc m tid))) with
    | Ok k => if sn_pos nd <? length (sm_comb m)
              then mkSM (lset (sm_comb m) (sn_pos nd) k) (fupd (sm_loc m) tid (mkSL [] (S (sl_cnt (sm_loc m tid))))) (sm_bad m)
              else mkSM (sm_comb m) (sm_loc m) true
    | _ => mkSM (sm_comb m) (sm_loc m) true
    end.
  Definition gibbs_code (nd : snode) : task smemory := map (fun d => read_value (d_pos d)) (sn_deps nd) ++ [write_value nd].

  Record smeq (m m' : smemory) : Prop := {
    sq_comb : sm_comb m' = sm_comb m;
    sq_loc : forall t, sm_loc m' t = sm_loc m t;
    sq_bad : sm_bad m' = sm_bad m
  }.
  Lemma smeq_refl m : smeq m m.
  Proof. constructor; auto. Qed.
  Lemma smeq_sym m m' : smeq m m' -> smeq m' m.
  Proof. intros [A B C]. constructor; auto. Qed.
  Lemma smeq_trans a b c : smeq a b -> smeq b c -> smeq a c.
  Proof. intros [A B C] [A' B' C']. constructor; congruence. Qed.

  (** different positions, and none reads what the other writes *)
  Definition sindep (x y : snode) : Prop :=
    sn_pos x <> sn_pos y /\ (forall d, In d (sn_deps x) -> d_pos d <> sn_pos y) /\ (forall d, In d (sn_deps y) -> d_pos d <> sn_pos x).
  Lemma sindep_sym x y : sindep x y -> sindep y x.
  Proof. intros (A & B & C). split; auto. Qed.

  Lemma gibbs_proper x f t m m' : In f (gibbs_code x) -> smeq m m' -> smeq (f t m) (f t m').
  Proof.
    intros I [A B C]. apply in_app_or in I as [I|[<-|[]]].
    - apply in_map_iff in I as (d & <- & _). unfold read_value. rewrite A, B. destruct (nth_error (sm_comb m) (d_pos d)); constructor; simpl; auto. intros u. unfold fupd. destruct (u =? t); auto.
    - unfold write_value. rewrite A, B. destruct (sample_from x _ _); try (constructor; simpl; auto; fail). destruct (sn_pos x <? length (sm_comb m)); constructor; simpl; auto. intros u. unfold fupd. destruct (u =? t); auto.
  Qed.
  Lemma fupd_two {T} (g : nat -> T) a b x y u : a <> b -> fupd (fupd g b y) a x u = fupd (fupd g a x) b y u.
  Proof. intros D. unfold fupd. destruct (Nat.eqb_spec u a), (Nat.eqb_spec u b); congruence. Qed.
  Lemma read_read q r a b m : a <> b -> smeq (read_value q a (read_value r b m)) (read_value r b (read_value q a m)).
  Proof.
    intros D. unfold read_value at 2 4. destruct (nth_error (sm_comb m) r) as [k|] eqn:Er, (nth_error (sm_comb m) q) as [j|] eqn:Eq; unfold read_value; simpl; rewrite ?Er, ?Eq; simpl;
    constructor; simpl; auto. intros u. rewrite (fupd_ne (sm_loc m) b a), (fupd_ne (sm_loc m) a b) by auto. apply fupd_two; auto.
  Qed.
  Lemma read_write q y a b m : a <> b -> q <> sn_pos y -> smeq (read_value q a (write_value y b m)) (write_value y b (read_value q a m)).
  Proof.
    intros D Q. assert (X : forall (l : list nat) k, nth_error (lset l (sn_pos y) k) q = nth_error l q) by (intros; apply nth_error_lset_ne; auto).
    unfold write_value, read_value. destruct (nth_error (sm_comb m) q) as [j|] eqn:Eq; simpl.
    - rewrite (fupd_ne (sm_loc m) a b) by auto. destruct (sample_from y _ _) as [k| | | |]; try (simpl; rewrite Eq; constructor; simpl; auto; fail).
      destruct (sn_pos y <? length (sm_comb m)); simpl; rewrite ?X, Eq; constructor; simpl; auto. intros u. rewrite (fupd_ne (sm_loc m) b a) by auto. apply fupd_two; auto.
    - destruct (sample_from y _ _) as [k| | | |]; try (simpl; rewrite Eq; constructor; simpl; auto; fail).
      destruct (sn_pos y <? length (sm_comb m)); simpl; rewrite ?X, Eq; constructor; simpl; auto.
  Qed.
  Lemma lset_lset {T} (l : list T) i k x y : i <> k -> lset (lset l i x) k y = lset (lset l k y) i x.
  Proof.
    intros D. apply nth_error_ext'. intros u.
    destruct (Nat.lt_ge_cases u (length l)) as [L|L].
    - destruct (Nat.eq_dec u k) as [->|]; [|destruct (Nat.eq_dec u i) as [->|]].
      + rewrite nth_error_lset_eq by (rewrite length_lset; auto). rewrite nth_error_lset_ne by auto. rewrite nth_error_lset_eq; auto.
      + rewrite nth_error_lset_ne by auto. rewrite !nth_error_lset_eq; auto. rewrite length_lset; auto.
      + rewrite !nth_error_lset_ne; auto.
    - rewrite !(proj2 (nth_error_None _ _)); auto; rewrite !length_lset; auto.
  Qed.
  Lemma write_write x y a b m : a <> b -> sn_pos x <> sn_pos y -> smeq (write_value x a (write_value y b m)) (write_value y b (write_value x a m)).
  Proof.
    intros D Q. unfold write_value at 2 4.
    destruct (sample_from y (sl_vals (sm_loc m b)) (draw b (sl_cnt (sm_loc m b)))) as [k| | | |] eqn:Ey, (sample_from x (sl_vals (sm_loc m a)) (draw a (sl_cnt (sm_loc m a)))) as [j| | | |] eqn:Ex;
    repeat match goal with |- context[?i <? ?j] => destruct (i <? j) eqn:? end; unfold write_value; simpl;
    rewrite ?(fupd_ne (sm_loc m) b a), ?(fupd_ne (sm_loc m) a b), ?Ey, ?Ex, ?length_lset by auto; simpl;
    repeat match goal with Hq : (_ <? _) = _ |- _ => rewrite Hq end; constructor; simpl; auto.
    - apply lset_lset; auto.
    - intros u. apply fupd_two; auto.
  Qed.
  Lemma gibbs_comm x y f g a b m : In f (gibbs_code x) -> In g (gibbs_code y) -> sindep x y -> a <> b -> smeq (f a (g b m)) (g b (f a m)).
  Proof.
    intros If Ig (P1 & P2 & P3) D. apply in_app_or in If as [If|[<-|[]]]; apply in_app_or in Ig as [Ig|[<-|[]]].
    - apply in_map_iff in If as (d & <- & _). apply in_map_iff in Ig as (d' & <- & _). apply read_read; auto.
    - apply in_map_iff in If as (d & <- & Id). apply read_write; auto.
    - apply in_map_iff in Ig as (d & <- & Id). apply smeq_sym, read_write; auto.
    - apply write_write; auto.
  Qed.

  (** {1 A task alone} *)
  Lemma sample_value_from nd comb x k : sample_value H nd comb x = Ok k ->
    exists vals, rmap (fun d => vget comb (d_pos d)) (sn_deps nd) = Ok vals /\ sample_from nd vals x = Ok k.
  Proof.
    unfold sample_value, sample_from. intros E.
    destruct (rmap (fun d => let* k := vget comb (d_pos d) in evidence_factor (H (d_fac d)) (d_sender d) k) (sn_deps nd)) as [evs| | | |] eqn:R; try discriminate. cbn [rbind] in E.
    assert (G : forall ds evs, rmap (fun d => let* k := vget comb (d_pos d) in evidence_factor (H (d_fac d)) (d_sender d) k) ds = Ok evs ->
      exists vals, rmap (fun d => vget comb (d_pos d)) ds = Ok vals /\ rmap (fun dk => evidence_factor (H (d_fac (fst dk))) (d_sender (fst dk)) (snd dk)) (combine ds vals) = Ok evs).
    { clear. induction ds as [|d ds IH]; intros evs R; simpl in *. exists []. auto.
      destruct (vget comb (d_pos d)) as [v| | | |]; try discriminate; cbn [rbind] in *.
      destruct (evidence_factor (H (d_fac d)) (d_sender d) v) as [g| | | |] eqn:Eg; try discriminate; cbn [rbind] in *.
      destruct (rmap _ ds) as [gs| | | |] eqn:Q; try discriminate. cbn [rbind] in R. injection R as <-. destruct (IH gs eq_refl) as (vals & A & B).
      exists (v :: vals). rewrite A. simpl. split; auto. rewrite Eg, B. auto. }
    destruct (G _ _ R) as (vals & A & B). exists vals. split; auto. rewrite B. cbn [rbind]. exact E.
  Qed.
  Lemma reads_values tid ds : forall m acc c vals, sm_loc m tid = mkSL acc c -> rmap (fun d => vget (sm_comb m) (d_pos d)) ds = Ok vals ->
    smeq (gen_task smemory tid (map (fun d => read_value (d_pos d)) ds) m) (mkSM (sm_comb m) (fupd (sm_loc m) tid (mkSL (acc ++ vals) c)) (sm_bad m)).
  Proof.
    induction ds as [|d ds IH]; intros m acc c vals L R; simpl in R.
    - injection R as <-. constructor; simpl; auto. intros u. unfold fupd. destruct (Nat.eqb_spec u tid); subst; auto. rewrite app_nil_r. auto.
    - unfold vget at 1 in R. destruct (nth_error (sm_comb m) (d_pos d)) as [v|] eqn:E; try discriminate. cbn [rbind] in R.
      destruct (rmap (fun d => vget (sm_comb m) (d_pos d)) ds) as [vs| | | |] eqn:Q; try discriminate. cbn [rbind] in R. injection R as <-.
      unfold gen_task. cbn [map fold_left]. set (m1 := read_value (d_pos d) tid m).
      assert (Em : m1 = mkSM (sm_comb m) (fupd (sm_loc m) tid (mkSL (acc ++ [v]) c)) (sm_bad m)) by (unfold m1, read_value; rewrite E, L; auto).
      specialize (IH m1 (acc ++ [v]) c vs). assert (L1 : sm_loc m1 tid = mkSL (acc ++ [v]) c) by (rewrite Em; simpl; apply fupd_eq).
      assert (C1 : sm_comb m1 = sm_comb m) by (rewrite Em; auto). rewrite C1 in IH. specialize (IH L1 Q).
      eapply smeq_trans. exact IH. rewrite Em. simpl. rewrite <- app_assoc. constructor; simpl; auto. intros u. unfold fupd. destruct (u =? tid); auto.
  Qed.
  (** the memory at the end of the tasks in the state [st] *)
  Definition holds (st : sstate) (m : smemory) : Prop :=
    sm_comb m = ss_comb st /\ (forall t, sm_loc m t = mkSL [] (ss_cnt st t)) /\ sm_bad m = false.
  Lemma holds_eq st m m' : smeq m m' -> holds st m -> holds st m'.
  Proof. intros [A B C] (P & Q & R). split; [congruence|]. split; [|congruence]. intros t. rewrite B. auto. Qed.
  Lemma gibbs_task_ok tid nd st st' m : holds st m -> sample_task H draw tid nd st = Ok st' -> holds st' (gen_task smemory tid (gibbs_code nd) m).
  Proof.
    intros (P & Q & R) E. unfold sample_task in E. apply rbind_ok in E as (k & Ek & E). apply rbind_ok in E as (c & Ec & E). injection E as <-.
    apply sample_value_from in Ek as (vals & Ev & Ek). unfold gen_task, gibbs_code. rewrite fold_left_app. cbn [fold_left].
    rewrite <- P in Ev. pose proof (reads_values tid (sn_deps nd) m [] _ vals (Q tid) Ev) as RD. unfold gen_task in RD.
    apply (holds_eq _ (write_value nd tid (mkSM (sm_comb m) (fupd (sm_loc m) tid (mkSL ([] ++ vals) (ss_cnt st tid))) (sm_bad m)))).
    { apply (gibbs_proper nd). apply in_or_app; right; left; auto. apply smeq_sym; auto. }
    unfold write_value. simpl. rewrite fupd_eq. simpl. rewrite Ek. unfold vset in Ec. rewrite P. destruct (sn_pos nd <? length (ss_comb st)) eqn:L; try discriminate.
    injection Ec as <-. split; auto. split; auto. simpl. intros t. unfold fupd. destruct (Nat.eqb_spec t tid); subst; auto.
  Qed.
  Lemma gibbs_all_ok n b : forall k st st' m, holds st m -> batch_loop H draw n k b st = Ok st' -> holds st' (gen_all smemory snode gibbs_code n k b m).
  Proof.
    induction b as [|nd b IH]; intros k st st' m Hm E; cbn [batch_loop gen_all] in *. injection E as <-; auto.
    apply rbind_ok in E as (st1 & E1 & E). eapply IH; [|exact E]. eapply gibbs_task_ok; eauto.
  Qed.

  (** {1 All the batches} *)
  Section Run.
    Variable n : nat.
    Hypothesis Hn : 1 <= n.
    Variable bs : list (list snode).
    Hypothesis IND : forall b, In b bs -> ForallOrdPairs sindep b.
    Notation jobs := (gen_jobs smemory snode gibbs_code bs).
    Lemma gibbs_effects ls : forall j st st' m, (forall i l, nth_error ls i = Some l -> interleaving smemory n jobs (j + i) l) -> holds st m ->
      rfold (fun st b => batch_loop H draw n 0 b st) (map (gen_batch snode bs) (seq j (length ls))) st = Ok st' ->
      holds st' (effects smemory jobs j ls m).
    Proof.
      induction ls as [|l ls IH]; intros j st st' m I Hm E; simpl in E. injection E as <-; auto.
      apply rbind_ok in E as (st1 & E1 & E). simpl. eapply (IH (S j) st1); [| |exact E].
      - intros i l' Hi. specialize (I (S i) l' Hi). rewrite Nat.add_succ_r in I. auto.
      - pose proof (I 0 l eq_refl) as I0. rewrite Nat.add_0_r in I0.
        eapply holds_eq; [apply smeq_sym, (gen_interleaving smemory smeq smeq_refl smeq_sym smeq_trans snode gibbs_code sindep sindep_sym gibbs_proper gibbs_comm n Hn bs IND j l m I0)|].
        eapply gibbs_all_ok; eauto.
    Qed.
  End Run.

  (** {1 Sweeps} *)
  Lemma evolve_fold n bs k : forall st, evolve H draw n bs k st = rfold (fun st b => batch_loop H draw n 0 b st) (concat (repeat bs k)) st.
  Proof.
    induction k as [|k IH]; intros st; cbn [evolve repeat concat]; auto. rewrite rfold_app. unfold sweep. destruct (rfold _ bs st); cbn [rbind]; auto.
  Qed.
  Lemma concat_repeat_length {T} (bs : list T) k : length (concat (repeat bs k)) = k * length bs.
  Proof. induction k; simpl; auto. rewrite app_length. auto. Qed.
  Lemma repeat_le {T} (bs : list T) k t : k <= t -> exists r, concat (repeat bs t) = concat (repeat bs k) ++ r.
  Proof.
    intros L. exists (concat (repeat bs (t - k))). rewrite <- concat_app, <- repeat_app. do 2 f_equal. lia.
  Qed.
  Lemma nth_prefix {T} (d : T) a r : map (fun i => nth i (a ++ r) d) (seq 0 (length a)) = a.
  Proof.
    apply nth_error_ext'. intros i. rewrite nth_error_map. destruct (nth_error a i) as [x|] eqn:E.
    - assert (L : i < length a) by (apply nth_error_Some; congruence). rewrite (nth_error_nth' _ 0) by (rewrite seq_length; auto). rewrite seq_nth by auto. simpl.
      rewrite app_nth1 by auto. f_equal. apply nth_error_nth. auto.
    - rewrite (proj2 (nth_error_None _ _)); auto. rewrite seq_length. apply nth_error_None. auto.
  Qed.
  Lemma collect_nth n bs delta len : forall st out i c, collect H draw n bs delta len st = Ok out -> nth_error out i = Some c ->
    exists st', evolve H draw n bs (i * delta) st = Ok st' /\ c = ss_comb st'.
  Proof.
    induction len as [|len IH]; intros st out i c E Hi; cbn [collect] in E. injection E as <-. destruct i; discriminate.
    apply rbind_ok in E as (st1 & E1 & E). apply rbind_ok in E as (r & Er & E). injection E as <-. destruct i as [|i]; simpl in Hi.
    - injection Hi as <-. exists st. auto.
    - destruct (IH _ _ _ _ Er Hi) as (st' & Ev & Ec). exists st'. split; auto. simpl. rewrite evolve_fold, repeat_app, concat_app, rfold_app, <- !evolve_fold, E1. cbn [rbind]. rewrite <- evolve_fold. exact Ev.
  Qed.
End GibbsPool.
