(** make_samples follows the chain of GibbsSpec.v *)
From Coq Require Import String List Arith Bool Lia Permutation Field.
From Verif Require Import Res Num Categoric Func FuncProofs GroupProofs FactorProofs FactorApi Special SpecialProofs
  Graph GraphLemmas Clusters Belief GraphInv EvidInv BeliefInv BigOp Tree BPStep BPRun GraphSpec Hist BeliefSpec Sums Exact
  Gibbs GibbsSpec GibbsProofs.
Import ListNotations.
Open Scope nat_scope.

Lemma nth_error_ext' {T} (l l' : list T) : (forall i, nth_error l i = nth_error l' i) -> l = l'.
Proof.
  revert l'; induction l as [|x l IH]; intros [|y l'] E; auto.
  - specialize (E 0). discriminate.
  - specialize (E 0). discriminate.
  - pose proof (E 0) as E0. injection E0 as ->. f_equal. apply IH. intros i. apply (E (S i)).
Qed.

(** {1 Batches} *)
Section Batches.
  Context {N : num}.
  Notation snode := (snode (N:=N)).
  Implicit Types l b o : list snode.

  Lemma gibbs_batch_perm l : forall sn wl b o, gibbs_batch l sn wl = (b, o) -> Permutation (b ++ o) l.
  Proof.
    induction l as [|t l IH]; intros sn wl b o E; simpl in E. injection E as <- <-; auto.
    destruct (negb (mem (sn_pos t) sn) && negb (existsb (fun d => mem (d_pos d) wl) (sn_deps t))).
    - destruct (gibbs_batch l _ _) as [b' o'] eqn:Q. injection E as <- <-. simpl. constructor. eapply IH; eauto.
    - destruct (gibbs_batch l sn wl) as [b' o'] eqn:Q. injection E as <- <-. rewrite <- Permutation_middle. constructor. eapply IH; eauto.
  Qed.
  Lemma gibbs_batch_ne t l b o : gibbs_batch (t :: l) [] [] = (b, o) -> b <> [].
  Proof.
    cbn [gibbs_batch]. assert (Q : existsb (fun d => mem (d_pos d) []) (sn_deps t) = false).
    { unfold mem. simpl. induction (sn_deps t); simpl; auto. }
    rewrite Q. cbn [mem existsb negb andb]. destruct (gibbs_batch l _ _). intros [= <- <-]. discriminate.
  Qed.
  Lemma gibbs_batches_ok n : forall l, length l <= n -> exists bs, gibbs_batches n l = Ok bs /\ Permutation (concat bs) l.
  Proof.
    induction n as [|n IH]; intros [|t l] L; simpl in L; try lia; try (exists []; auto; fail).
    cbn [gibbs_batches]. destruct (gibbs_batch (t :: l) [] []) as [b o] eqn:Q. pose proof (gibbs_batch_perm _ _ _ _ _ Q) as P.
    pose proof (gibbs_batch_ne _ _ _ _ Q) as NE.
    destruct (IH o) as (bs & E & P2). { apply Permutation_length in P. rewrite app_length in P. simpl in P. destruct b; [congruence|]. simpl in P. lia. }
    rewrite E. cbn [rbind]. exists (b :: bs). split; auto. simpl. rewrite P2. auto.
  Qed.
  Lemma gibbs_order_ok pool l : exists bs, gibbs_order pool l = Ok bs /\ Permutation (concat bs) l.
  Proof.
    unfold gibbs_order. destruct (pool =? 1). exists [l]. split; auto. simpl. rewrite app_nil_r. auto. apply gibbs_batches_ok; auto.
  Qed.
  (** the tasks of a batch do not write what the others read *)
  Lemma gibbs_batch_indep l : forall sn wl b o, gibbs_batch l sn wl = (b, o) ->
    (forall x, In x b -> ~ In (sn_pos x) sn /\ forall d, In d (sn_deps x) -> ~ In (d_pos d) wl) /\
    ForallOrdPairs (fun x y => (forall d, In d (sn_deps x) -> d_pos d <> sn_pos y) /\ forall d, In d (sn_deps y) -> d_pos d <> sn_pos x) b.
  Proof.
    induction l as [|t l IH]; intros sn wl b o E; simpl in E. injection E as <- <-. split. intros x []. constructor.
    destruct (negb (mem (sn_pos t) sn) && negb (existsb (fun d => mem (d_pos d) wl) (sn_deps t))) eqn:T.
    - destruct (gibbs_batch l _ _) as [b' o'] eqn:Q. injection E as <- <-. apply IH in Q as [Q1 Q2]. apply andb_true_iff in T as [T1 T2]. apply negb_true_iff in T1, T2. split.
      + intros x [<-|I].
        * split. apply mem_false; auto. intros d Id J. assert (X : existsb (fun d => mem (d_pos d) wl) (sn_deps t) = true). { apply existsb_exists. exists d. split; auto. apply mem_In; auto. } congruence.
        * destruct (Q1 x I) as [X Y]. split. intros J. apply X. apply in_or_app. auto. intros d Id J. apply (Y d Id). apply in_or_app. auto.
      + constructor; auto. apply Forall_forall. intros y Iy. destruct (Q1 y Iy) as [X Y]. split.
        * intros d Id E. apply X. apply in_or_app. right. rewrite <- E. apply in_map. auto.
        * intros d Id E. apply (Y d Id). apply in_or_app. right. simpl. auto.
    - destruct (gibbs_batch l sn wl) as [b' o'] eqn:Q. injection E as <- <-. eapply IH; eauto.
  Qed.
  Lemma gibbs_batches_indep n : forall l bs, gibbs_batches n l = Ok bs -> forall b, In b bs ->
    ForallOrdPairs (fun x y => (forall d, In d (sn_deps x) -> d_pos d <> sn_pos y) /\ forall d, In d (sn_deps y) -> d_pos d <> sn_pos x) b.
  Proof.
    induction n as [|n IH]; intros [|t l] bs E b I; cbn [gibbs_batches] in E; try discriminate; try (injection E as <-; contradiction).
    destruct (gibbs_batch (t :: l) [] []) as [b0 o] eqn:Q. apply rbind_ok in E as (bs' & E & R). injection R as <-. destruct I as [<-|I].
    apply gibbs_batch_indep in Q. tauto. eapply IH; eauto.
  Qed.
End Batches.

Section Chain.
  Context {N : num} (OK : num_ok N).
  Variable H : nat -> func N.
  Hypothesis HG : goods H.
  Notation gst := (gst (N:=N)).
  Notation snode := (snode (N:=N)).
  Implicit Types s : gst.
  Notation core := (core H).
  Add Field NFieldChain : (ok_field N OK).

  Variable s : gst.
  Hypothesis C : core s (g_all s).
  Variable A : spec.
  Hypothesis AB : abs s A.
  Variable draw : nat -> nat -> N.

  Definition good_comb (c : list nat) : Prop := in_range s c /\ comb_obs s c.

  Lemma good_comb_spec c : good_comb c <-> sample_ok A c.
  Proof.
    unfold sample_ok. rewrite <- (ab_vars _ _ AB). split.
    - intros [[L R] O]. assert (G : forall vs cs k, length vs = length cs -> (forall i v m, nth_error vs i = Some v -> nth_error cs i = Some m -> var_at s (k + i) v /\ nth_error c (k + i) = Some m) ->
        Forall2 (fun v k => k < vsize v /\ match sp_evidence A v with Some j => k = j | None => True end) vs cs).
      { induction vs as [|v vs IH]; intros [|m cs] k Ll F; simpl in Ll; try discriminate; constructor.
        - destruct (F 0 v m eq_refl eq_refl) as [F1 F2]. rewrite Nat.add_0_r in F1, F2. split. eapply R; eauto.
          rewrite (ev_at s A AB _ _ F1). destruct (g_ev s k) as [j|] eqn:E; auto. rewrite <- (O k j E). symmetry. apply nth_error_nth. auto.
        - apply (IH cs (S k)). lia. intros i w m' Hw Hm. replace (S k + i) with (k + S i) by lia. apply (F (S i)); auto. }
      apply (G _ _ 0); auto.
    - intros F. assert (F' : forall i v m, nth_error (g_vars s) i = Some v -> nth_error c i = Some m -> m < vsize v /\ match sp_evidence A v with Some j => m = j | None => True end).
      { clear - F. induction F as [|v m vs cs Hm F IH]; intros [|i] w m' Hw Hm'; simpl in *; try discriminate; eauto. injection Hw as <-. injection Hm' as <-. auto. }
      assert (L : length c = gsize s) by (unfold gsize; clear - F; induction F; simpl; auto).
      split; [split; auto|].
      + intros b v k Hb Hk. apply (F' b v k); auto.
      + intros b k E. destruct (co_ev _ _ _ C _ _ E) as (v & Hv & _). assert (Hn : nth_error c b = Some (nth b c 0)) by (apply nth_error_nth'; rewrite L; eapply var_at_lt; eauto).
        destruct (F' b v _ Hv Hn) as [_ Q]. rewrite (ev_at s A AB b v Hv), E in Q. auto.
  Qed.

  Lemma selects_ext n p q x k : (forall j, (p j : N) = q j) -> selects n p x k -> selects n q x k.
  Proof.
    intros E (L & B & T). split; auto. rewrite !(sumL_ext q p) by (intros; symmetry; auto). auto.
  Qed.

  Lemma sample_task_ok a nd tid st : node_ok H s a nd -> good_comb (ss_comb st) ->
    exists c, sample_task H draw tid nd st = Ok (mkSS c (fupd (ss_cnt st) tid (S (ss_cnt st tid)))) /\ good_comb c /\
      redraw H A (ss_comb st) a (draw tid (ss_cnt st tid)) c.
  Proof.
    intros O [IR OB]. pose proof O as (E1 & Ev & va & Ha & _).
    destruct (sample_value_ok OK H HG s C a nd va (ss_comb st) (draw tid (ss_cnt st tid)) O Ha IR) as (k & Ek & Lk & Z & NZ).
    assert (La : a < length (ss_comb st)) by (rewrite (proj1 IR); eapply var_at_lt; eauto).
    exists (lset (ss_comb st) a k). unfold sample_task. rewrite Ek. cbn [rbind]. rewrite E1, vset_ok by auto. cbn [rbind]. split; auto. split.
    - destruct IR as [Lc R]. split; [split|].
      + rewrite length_lset. auto.
      + intros b v m Hb Hm. destruct (Nat.eq_dec a b) as [<-|Nb].
        * rewrite nth_error_lset_eq in Hm by auto. injection Hm as <-. rewrite (var_at_fun _ _ _ _ Hb Ha). auto.
        * rewrite nth_error_lset_ne in Hm by auto. eauto.
      + intros b m Hb. rewrite <- replace_lset, nth_replace by auto. destruct (Nat.eq_dec b a) as [->|Nb]. congruence. rewrite (proj2 (Nat.eqb_neq _ _) Nb). auto.
    - exists va, k. assert (Q : forall j, level H A (ss_comb st) a va j = local H s a va (ss_comb st) j) by (intros; apply (level_local OK H HG s C A AB); auto).
      assert (ES : sumL (level H A (ss_comb st) a va) (seq 0 (vsize va)) = sumL (local H s a va (ss_comb st)) (seq 0 (vsize va))) by (apply sumL_ext; auto).
      splits; auto.
      + rewrite <- (ab_vars _ _ AB). auto.
      + rewrite ES. auto.
      + rewrite ES. intros Nz. eapply selects_ext; [|apply (NZ Nz)]. intros j. unfold conditional. rewrite Q, ES. auto.
  Qed.

  Lemma visits_app l1 : forall l2 st st1 st2, visits H draw A l1 st st1 -> visits H draw A l2 st1 st2 -> visits H draw A (l1 ++ l2) st st2.
  Proof.
    induction l1 as [|[a t] l1 IH]; intros l2 st st1 st2 V1 V2; simpl in *. subst; auto. destruct V1 as (c & R & V). exists c. split; auto. eapply IH; eauto.
  Qed.

  Definition view (st : sstate) : state := (ss_comb st, ss_cnt st).
  Definition threads_of (pool k : nat) (b : list snode) : list (nat * nat) := map (fun p => (sn_pos (snd p), fst p mod pool)) (combine (seq k (length b)) b).

  Definition nodes_good (b : list snode) : Prop := Forall (fun nd => node_ok H s (sn_pos nd) nd) b.

  Lemma batch_loop_ok pool b : nodes_good b -> forall k st, good_comb (ss_comb st) ->
    exists st', batch_loop H draw pool k b st = Ok st' /\ good_comb (ss_comb st') /\ visits H draw A (threads_of pool k b) (view st) (view st').
  Proof.
    induction 1 as [|nd b O F IH]; intros k st G. exists st. split; auto. split; auto. simpl. auto.
    destruct (sample_task_ok (sn_pos nd) nd (k mod pool) st O G) as (c & E & Gc & R). cbn [batch_loop]. rewrite E. cbn [rbind].
    destruct (IH (S k) (mkSS c (fupd (ss_cnt st) (k mod pool) (S (ss_cnt st (k mod pool))))) Gc) as (st' & E' & G' & V). exists st'. split; auto. split; auto. change (visits H draw A ((sn_pos nd, k mod pool) :: threads_of pool (S k) b) (view st) (view st')). exists c. split; auto.
  Qed.
  Lemma sweep_ok pool bs : Forall nodes_good bs -> forall st, good_comb (ss_comb st) ->
    exists st', sweep H draw pool bs st = Ok st' /\ good_comb (ss_comb st') /\ visits H draw A (flat_map (threads_of pool 0) bs) (view st) (view st').
  Proof.
    unfold sweep. induction 1 as [|b bs O F IH]; intros st G; cbn [rfold flat_map].
    - exists st. split; auto. split; auto. simpl. auto.
    - destruct (batch_loop_ok pool b O 0 st G) as (st1 & E1 & G1 & V1). rewrite E1. cbn [rbind]. destruct (IH st1 G1) as (st2 & E2 & G2 & V2).
      exists st2. split; auto. split; auto. eapply visits_app; eauto.
  Qed.
  Lemma evolve_ok pool bs n : Forall nodes_good bs -> forall st, good_comb (ss_comb st) ->
    exists st', evolve H draw pool bs n st = Ok st' /\ good_comb (ss_comb st') /\ sweeps H draw A (flat_map (threads_of pool 0) bs) n (view st) (view st').
  Proof.
    intros F. induction n as [|n IH]; intros st G; cbn [evolve sweeps].
    - exists st. auto.
    - destruct (sweep_ok pool bs F st G) as (st1 & E1 & G1 & V1). rewrite E1. cbn [rbind]. destruct (IH st1 G1) as (st2 & E2 & G2 & V2).
      exists st2. split; auto. split; auto. exists (view st1). auto.
  Qed.
  Lemma collect_ok pool bs delta n : Forall nodes_good bs -> forall st, good_comb (ss_comb st) ->
    exists out, collect H draw pool bs delta n st = Ok out /\ length out = n /\ Forall good_comb out /\ chain H draw A (flat_map (threads_of pool 0) bs) delta out (view st).
  Proof.
    intros F. induction n as [|n IH]; intros st G; cbn [collect].
    - exists []. splits; auto. exact I.
    - destruct (evolve_ok pool bs delta F st G) as (st1 & E1 & G1 & V1). rewrite E1. cbn [rbind]. destruct (IH st1 G1) as (out & E2 & L2 & F2 & V2). rewrite E2. cbn [rbind].
      exists (ss_comb st :: out). splits; auto. simpl. auto. simpl. split; auto. exists (view st1). auto.
  Qed.

  (** {1 Positive assignments} *)
  Lemma factor_nonneg f c : in_range s c -> In f (g_all s) -> (n0 <= fval (H f) (map (val (combine (sp_vars A) c)) (f_vars (H f))))%num.
  Proof.
    intros [L R] I. assert (VR : forall b v, var_at s b v -> val (combine (sp_vars A) c) v < vsize v).
    { intros b v Hb. rewrite (val_comb H s C A AB c b v) by auto. apply (R b v); auto. apply nth_error_nth'. rewrite L. eapply var_at_lt; eauto. }
    destruct (co_fac _ _ _ C f I) as [(v & a & E & Hv & _)|(va & vb & a & b & c' & E & Ha & Hb & _)]; unfold fvars in E; rewrite E; simpl.
    - eapply (uval_nonneg OK H HG f v); eauto.
    - pose proof (bval_nonneg OK H HG f va vb _ _ E (VR a va Ha) (VR b vb Hb)) as Q. unfold bval in Q. rewrite E, var_peqb_refl in Q. auto.
  Qed.

  Lemma positive_comb : positive (weight H A) A -> exists c, good_comb c /\ (n0 < weight H A (combine (sp_vars A) c))%num.
  Proof.
    intros (x & [Ix Ag] & P). apply all_asg_In in Ix as (l & -> & L & R). exists l. split; auto. apply good_comb_spec. unfold sample_ok.
    assert (ND : NoDup (sp_vars A)) by (rewrite <- (ab_vars _ _ AB); apply (vars_NoDup H s C)).
    unfold agrees in Ag. rewrite forallb_forall in Ag.
    assert (G : forall i v m, nth_error (sp_vars A) i = Some v -> nth_error l i = Some m -> m < vsize v /\ match sp_evidence A v with Some j => m = j | None => True end).
    { intros i v m Hv Hm. split; eauto. specialize (Ag v (nth_error_In _ _ Hv)). destruct (sp_evidence A v) as [j|]; auto.
      apply Nat.eqb_eq in Ag. rewrite (val_combine _ ND l i v m Hv Hm) in Ag. auto. }
    revert L G. generalize (sp_vars A) l. clear. induction l as [|v vs IH]; intros [|m cs] L G; simpl in L; try discriminate; constructor.
    - apply (G 0 v m); auto.
    - apply IH. lia. intros i w k Hw Hk. apply (G (S i) w k); auto.
  Qed.

  Lemma positive_uw a va : positive (weight H A) A -> g_ev s a = None -> var_at s a va -> exists i, i < vsize va /\ uw H s a i <> n0.
  Proof.
    intros P Ev Ha. destruct (positive_comb P) as (c & [IR OB] & Pc). exists (nth a c 0).
    assert (La : a < length c) by (rewrite (proj1 IR); eapply var_at_lt; eauto).
    assert (Na : nth_error c a = Some (nth a c 0)) by (apply nth_error_nth'; auto).
    split. apply (proj2 IR a va); auto.
    assert (Rc : replace c a (nth a c 0) = c) by (apply lset_same; auto).
    assert (Pl : (n0 < level H A c a va (nth a c 0%nat))%num).
    { unfold level, weight_of. rewrite Rc. apply (prodL_pos OK). intros f If. apply filter_In in If as [If _].
      apply (prodL_factor OK (fun f => fval (H f) (map (val (combine (sp_vars A) c)) (f_vars (H f)))) (sp_facs A)); auto.
      intros g Ig. apply factor_nonneg; auto. rewrite (ab_all _ _ AB). auto. }
    rewrite (level_local OK H HG s C A AB) in Pl by auto. unfold local in Pl. intros Z. rewrite Z in Pl.
    match type of Pl with (_ < (_ * ?x))%num => replace (n0 * x)%num with (n0 : N) in Pl by ring end. eapply (nlt_irr OK); eauto.
  Qed.

  (** {1 The first values} *)
  Lemma start_first : start_comb s = first_values A.
  Proof.
    unfold start_comb, first_values. rewrite <- (ab_vars _ _ AB). apply nth_error_ext'.
    intros i. rewrite !nth_error_map. destruct (nth_error (g_vars s) i) as [v|] eqn:E.
    - assert (L : i < gsize s) by (unfold gsize; apply nth_error_Some; congruence).
      rewrite (nth_error_nth' (seq 0 (gsize s)) 0) by (rewrite seq_length; auto). rewrite seq_nth by auto. simpl. rewrite (ev_at s A AB i v E). auto.
    - assert (L : gsize s <= i) by (apply nth_error_None; auto). rewrite (proj2 (nth_error_None (seq 0 (gsize s)) i)) by (rewrite seq_length; auto). auto.
  Qed.
  Lemma start_good : good_comb (start_comb s).
  Proof.
    assert (NTH : forall b, b < gsize s -> nth_error (start_comb s) b = Some (match g_ev s b with Some k => k | None => 0 end)).
    { intros b L. unfold start_comb. rewrite nth_error_map. rewrite (nth_error_nth' (seq 0 (gsize s)) 0) by (rewrite seq_length; auto). rewrite seq_nth by auto. auto. }
    split; [split|].
    - unfold start_comb. rewrite map_length, seq_length. auto.
    - intros b v k Hb Hk. rewrite NTH in Hk by (eapply var_at_lt; eauto). injection Hk as <-. destruct (g_ev s b) as [k|] eqn:E.
      + destruct (co_ev _ _ _ C _ _ E) as (w & Hw & L). rewrite (var_at_fun _ _ _ _ Hb Hw). auto.
      + pose proof (co_made _ _ _ C) as M. rewrite Forall_forall in M. apply made_pos, M. eapply nth_error_In; exact Hb.
    - intros b k E. destruct (co_ev _ _ _ C _ _ E) as (w & Hw & L). apply nth_error_nth. rewrite NTH, E; auto. eapply var_at_lt; eauto.
  Qed.
  Lemma hidden_hid : hidden_positions A = hid s.
  Proof.
    unfold hidden_positions, hid. rewrite <- (ab_vars _ _ AB). apply filter_ext_in. intros a I. apply in_seq in I. destruct I as [_ I]. change (a < gsize s) in I.
    destruct (var_at_ex s a I) as [v Hv]. pose proof Hv as Hv'. unfold var_at in Hv'. rewrite Hv', (ev_at s A AB a v Hv). destruct (g_ev s a); auto.
  Qed.

  (** {1 The samples} *)
  Lemma Forall2_perm_snd {T U} (R : T -> U -> Prop) l l' m : Forall2 R l l' -> Permutation l' m -> exists k, Permutation l k /\ Forall2 R k m.
  Proof.
    intros F P. revert l F. induction P as [|y l' m P IH|y z l'|l1 l2 l3 P1 IH1 P2 IH2]; intros l F.
    - inversion F; subst. exists []. auto.
    - inversion F as [|x ? lx ? Rx Fx]; subst. destruct (IH _ Fx) as (k & P' & F'). exists (x :: k). auto.
    - inversion F as [|x ? lx ? Rx Fx]; subst. inversion Fx as [|x' ? lx' ? Rx' Fx']; subst. exists (x' :: x :: lx'). split; auto. constructor.
    - destruct (IH1 _ F) as (k & P' & F'). destruct (IH2 _ F') as (k2 & P'' & F''). exists k2. split; auto. eapply perm_trans; eauto.
  Qed.

  Lemma threads_pos pool b k : map fst (threads_of pool k b) = map sn_pos b.
  Proof. unfold threads_of. rewrite map_map. simpl. revert k. induction b as [|nd b IH]; intros k; simpl; auto. f_equal; auto. Qed.
  Lemma threads_lt pool b k : 1 <= pool -> Forall (fun p => snd p < pool) (threads_of pool k b).
  Proof.
    intros L. apply Forall_forall. intros p I. unfold threads_of in I. apply in_map_iff in I as (q & <- & _). simpl. apply Nat.mod_upper_bound. lia.
  Qed.

  Hypothesis CS : clus s.
  Hypothesis P : positive (weight H A) A.

  Theorem make_samples_ok e ceil10 c threads : env_ok e -> g_pool s = Some 1 -> 1 <= threads ->
    exists out s' visit, make_samples H draw e ceil10 c threads s = Ret out s' /\ keeps H s s' /\ g_pool s' = Some 1 /\
      length out = x_samples c /\ Forall (sample_ok A) out /\
      Permutation (map fst visit) (hidden_positions A) /\ Forall (fun p => snd p < threads) visit /\
      gibbs_chain H draw A visit (snd (delta_burn ceil10 c)) (fst (delta_burn ceil10 c)) out.
  Proof.
    intros E PO Lt. unfold make_samples, scoped_pool.
    assert (X : exists s1, set_pool_size threads s = Ret tt s1 /\ keeps H s s1 /\ g_pool s1 = Some threads /\ gsize s1 = gsize s /\ g_cl s1 = g_cl s /\ start_comb s1 = start_comb s).
    { unfold set_pool_size. rewrite PO. destruct (Nat.eq_dec threads 1) as [->|Nt].
      - exists s. simpl. splits; auto. apply keeps_refl.
      - rewrite (proj2 (Nat.eqb_neq _ _) Nt). destruct (Nat.eqb_spec threads 0); [lia|]. exists (set_pool s (Some threads)). splits; auto. apply keeps_pool. }
    destruct X as (s1 & Es1 & K1 & PO1 & Sz1 & Cl1 & St1). rewrite Es1. cbn [obind]. destruct (delta_burn ceil10 c) as [delta burn]. rewrite St1.
    unfold make_nodes. set (order := flat_map (fun cl => e_ord e (gsize s1) (cl_nodes cl)) (g_cl s1)).
    assert (PH : Permutation order (hid s)).
    { rewrite <- (cp_perm _ _ _ (cs_comp _ CS)). unfold order. rewrite Cl1. generalize (g_cl s). induction l as [|cl l IH]; simpl; auto. apply Permutation_app; auto. apply E. }
    destruct (make_node_list_ok OK H HG s1 (g_all s) e order) as (nds & s2 & E2 & K2 & PO2 & F2); auto.
    { eapply keeps_core; eauto. }
    { intros a I. apply (Permutation_in _ PH) in I. apply hid_In in I as [La Ev]. destruct (var_at_ex _ _ La) as (va & Ha).
      split. rewrite (kp_ev _ _ _ K1). auto. exists va. split. apply (keeps_var H s s1); auto. destruct (positive_uw a va P Ev Ha) as (i & Li & U). exists i. split; auto. rewrite (keeps_uw H s s1); auto. }
    rewrite E2. cbn [obind]. rewrite PO2, PO1.
    assert (F2' : Forall2 (node_ok H s) order nds). { eapply Forall2_imp; [|exact F2]. intros a nd O. eapply keeps_node_ok; eauto. }
    destruct (gibbs_order_ok threads nds) as (bs & Eb & Pb). rewrite Eb. cbn [rbind].
    destruct (Forall2_perm_snd _ _ _ _ F2' (Permutation_sym Pb)) as (ps & Pp & Fp).
    assert (NG : nodes_good (concat bs)). { clear - Fp. induction Fp as [|a nd l m O F IH]; constructor; auto. pose proof O as (Q & _). rewrite Q. auto. }
    assert (EP : map sn_pos (concat bs) = ps). { clear - Fp. induction Fp as [|a nd l m O F IH]; simpl; auto. destruct O as (Q & _). rewrite Q, IH. auto. }
    assert (NB : Forall nodes_good bs). { apply Forall_forall. intros b Ib. apply Forall_forall. intros nd In_. unfold nodes_good in NG. rewrite Forall_forall in NG. apply NG. apply in_concat. eauto. }
    destruct (evolve_ok threads bs burn NB (mkSS (start_comb s) (fun _ => 0)) start_good) as (st & Ee & Ge & Ve). rewrite Ee. cbn [rbind].
    destruct (collect_ok threads bs delta (x_samples c) NB st Ge) as (out & Eo & Lo & Fo & Vo). rewrite Eo. cbn [lift].
    exists out, (set_pool s2 (Some 1)), (flat_map (threads_of threads 0) bs). split; [reflexivity|]. split.
    { eapply keeps_trans; [exact K1|]. eapply keeps_trans; [exact K2|]. apply keeps_pool. }
    split; [auto|]. split; [auto|]. split.
    { eapply Forall_impl; [|exact Fo]. intros x. apply good_comb_spec. }
    split.
    { rewrite hidden_hid. assert (M : map fst (flat_map (threads_of threads 0) bs) = map sn_pos (concat bs)).
      { clear. induction bs as [|b bs IH]; simpl; auto. rewrite !map_app, IH, threads_pos. auto. }
      rewrite M, EP, <- PH. symmetry. auto. }
    split.
    { apply Forall_flat_map. apply Forall_forall. intros b _. apply threads_lt; auto. }
    exists (view st). split; [|exact Vo]. rewrite <- start_first. exact Ve.
  Qed.
End Chain.

(** {1 The conditional probability given all the other variables} *)
Section Full.
  Context {N : num} (OK : num_ok N).
  Variable F : nat -> func N.
  Add Field NFieldFull : (ok_field N OK).

  Lemma prodL_filter {T} (g : T -> N) (p : T -> bool) l : prodL g l = (prodL g (filter p l) * prodL g (filter (fun x => negb (p x)) l))%num.
  Proof. induction l as [|x l IH]; simpl. ring. destruct (p x); simpl; rewrite IH; ring. Qed.
  Lemma combine_replace_val vs : forall c a v k w, nth_error vs a = Some v -> same_instance v w = false -> NoDup vs ->
    val (combine vs (replace c a k)) w = val (combine vs c) w.
  Proof.
    induction vs as [|u vs IH]; intros [|x c] [|a] v k w Ha Nw ND; simpl in *; auto; try discriminate.
    - injection Ha as ->. destruct (same_instance w v) eqn:E; auto. apply same_instance_spec in E. subst. rewrite (proj2 (same_instance_spec v v) eq_refl) in Nw. discriminate.
    - inversion ND; subst. destruct (same_instance w u); auto. eapply IH; eauto.
  Qed.

  Theorem conditional_full A c a v : NoDup (sp_vars A) -> nth_error (sp_vars A) a = Some v ->
    let w := fun k => weight F A (combine (sp_vars A) (replace c a k)) in
    sumL w (seq 0 (vsize v)) <> n0 ->
    sumL (level F A c a v) (seq 0 (vsize v)) <> n0 /\
    forall k, conditional F A c a v k = (w k / sumL w (seq 0 (vsize v)))%num.
  Proof.
    intros ND Ha w Z. set (p := fun f => existsb (same_instance v) (f_vars (F f))).
    set (rest := prodL (fun f => fval (F f) (map (val (combine (sp_vars A) c)) (f_vars (F f)))) (filter (fun f => negb (p f)) (sp_facs A))).
    assert (W : forall k, w k = (rest * level F A c a v k)%num).
    { intros k. unfold w, weight. rewrite (prodL_filter _ p). unfold level, weight_of. fold p. rewrite (nmul_comm OK). f_equal. unfold rest. apply prodL_ext. intros f I. apply filter_In in I as [_ I]. apply negb_true_iff in I.
      f_equal. apply map_ext_in. intros u Iu. apply (combine_replace_val _ _ _ v); auto. destruct (same_instance v u) eqn:E; auto. unfold p in I. assert (X : existsb (same_instance v) (f_vars (F f)) = true) by (apply existsb_exists; eauto). congruence. }
    assert (SW : sumL w (seq 0 (vsize v)) = (rest * sumL (level F A c a v) (seq 0 (vsize v)))%num).
    { rewrite <- (sumL_mul_l OK). apply sumL_ext. auto. }
    assert (Nl : sumL (level F A c a v) (seq 0 (vsize v)) <> n0). { intros E. apply Z. rewrite SW, E. ring. }
    assert (Nr : rest <> n0). { intros E. apply Z. rewrite SW, E. ring. }
    split; auto. intros k. unfold conditional. rewrite W, SW. field. auto.
  Qed.
End Full.
