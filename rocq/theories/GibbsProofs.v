(** The Gibbs sampler draws every hidden variable from its conditional
    distribution: make_samples follows the chain of GibbsSpec.v *)
From Coq Require Import String List Arith Bool Lia Permutation Field.
From Verif Require Import Res Num Categoric Func FuncProofs GroupProofs FactorProofs FactorApi Special SpecialProofs
  Graph GraphLemmas Clusters Belief GraphInv EvidInv BeliefInv BigOp Tree BPStep GraphSpec Hist BeliefSpec Sums Gibbs GibbsSpec.
Import ListNotations.
Open Scope nat_scope.

Lemma replace_lset {T} (l : list T) a x : replace l a x = lset l a x.
Proof. revert a; induction l as [|y l IH]; intros [|a]; simpl; try rewrite IH; auto. Qed.

(** {1 Drawing a value} *)
Section Draw.
  Context {N : num} (OK : num_ok N).
  Add Field NFieldDraw : (ok_field N OK).

  Lemma sumL_seq_S (p : nat -> N) a n : sumL p (seq a (S n)) = (sumL p (seq a n) + p (a + n)%nat)%num.
  Proof. rewrite seq_S, (sumL_app OK). simpl. ring. Qed.

  Lemma sample_loop_spec (p : nat -> N) x n : forall k cumul, cumul = sumL p (seq 0 k) ->
    match sample_loop (map p (seq k n)) k cumul x with
    | Some j => k <= j < k + n /\ (j = k \/ (sumL p (seq 0 j) < x)%num) /\ (x <= sumL p (seq 0 (S j)))%num
    | None => forall j, k <= j < k + n -> (sumL p (seq 0 (S j)) < x)%num
    end.
  Proof.
    induction n as [|n IH]; intros k cumul E; cbn [seq map sample_loop].
    - intros j L. lia.
    - assert (E' : (cumul + p k)%num = sumL p (seq 0 (S k))) by (rewrite E, sumL_seq_S; auto).
      rewrite E'. destruct (nltb (sumL p (seq 0 (S k))) x) eqn:Q.
      + specialize (IH (S k) _ eq_refl). destruct (sample_loop _ _ _ _) as [j|].
        * destruct IH as (L & B & T). split; [lia|]. split; auto. right. destruct B as [->|B]; auto.
        * intros j L. destruct (Nat.eq_dec j k) as [->|]; auto. apply IH. lia.
      + split; [lia|]. split; auto.
  Qed.

  Lemma sample_discrete_spec (p : nat -> N) n x : 0 < n -> selects n p x (sample_discrete (map p (seq 0 n)) x).
  Proof.
    intros L. unfold sample_discrete. pose proof (sample_loop_spec p x n 0 n0 eq_refl) as S1.
    destruct (sample_loop (map p (seq 0 n)) 0 n0 x) as [k|].
    - destruct S1 as (B & T & U). split; [lia|]. split; auto.
    - rewrite map_length, seq_length. split; [lia|]. split; auto. destruct (Nat.eq_dec (n - 1) 0); auto. right.
      replace (n - 1) with (S (n - 2)) by lia. apply S1. lia.
  Qed.

  Lemma sumL_seq_mono (p : nat -> N) n m : (forall k, k < m -> (n0 <= p k)%num) -> n <= m -> (sumL p (seq 0 n) <= sumL p (seq 0 m))%num.
  Proof.
    intros P L. induction m as [|m IH].
    - replace n with 0 by lia. apply (nle_refl OK).
    - destruct (Nat.eq_dec n (S m)) as [->|Nn]. apply (nle_refl OK). rewrite sumL_seq_S.
      apply (nle_trans OK) with (sumL p (seq 0 m)). apply IH; [auto|lia].
      pose proof (nle_add OK (sumL p (seq 0 m)) (sumL p (seq 0 m)) n0 (p m)) as Q.
      replace (sumL p (seq 0 m) + n0)%num with (sumL p (seq 0 m)) in Q by ring. apply Q. apply (nle_refl OK). apply P. lia.
  Qed.

  (** the selected value is unique *)
  Lemma selects_fun (p : nat -> N) n x i j : (forall k, k < n -> (n0 <= p k)%num) -> selects n p x i -> selects n p x j -> i = j.
  Proof.
    intros P. assert (G : forall a b, selects n p x a -> selects n p x b -> a < b -> False).
    { intros a b (La & _ & Ua) (Lb & Tb & _) L. destruct Ua as [->|Ua]; [lia|]. destruct Tb as [->|Tb]; [lia|].
      assert (M : (sumL p (seq 0 (S a)) <= sumL p (seq 0 b))%num) by (apply sumL_seq_mono; [intros k Lk; apply P; lia|lia]).
      pose proof (nle_trans OK _ _ _ Ua M) as Q. congruence. }
    intros Si Sj. destruct (Nat.lt_trichotomy i j) as [L|[E|L]]; auto; exfalso; eauto.
  Qed.
End Draw.

(** {1 The nodes of the sampler} *)
Section Nodes.
  Context {N : num} (OK : num_ok N).
  Variable H : nat -> func N.
  Hypothesis HG : goods H.
  Notation gst := (gst (N:=N)).
  Notation snode := (snode (N:=N)).
  Implicit Types s : gst.
  Notation core := (core H).
  Add Field NFieldNodes : (ok_field N OK).

  Definition dep_ok s a (b : nat) (d : sdep) : Prop :=
    d_pos d = b /\ var_at s b (d_sender d) /\ exists c, act s a b = Some c /\ d_fac d = c_fac c.
  Definition node_ok s a (nd : snode) : Prop :=
    sn_pos nd = a /\ g_ev s a = None /\ exists va, var_at s a va /\ scaled va (sn_static nd) (uw H s a) /\
      exists ks, Permutation ks (keys (gsize s) (nd_act (g_node s a))) /\ Forall2 (dep_ok s a) ks (sn_deps nd).

  Lemma find_node_own s fs a v : core s fs -> var_at s a v -> find_node s v = Some a.
  Proof. intros C Ha. apply find_node_spec. apply C. exists v. auto. Qed.

  Lemma make_deps s fs a l : core s fs -> (forall b, In b l -> exists c, act s a b = Some c) ->
    exists ds, rmap (fun b => match act s a b with
              | None => UB
              | Some c => let* w := node_var s b in let* q := comb_pos s w in Ok (mkDep w q (c_fac c))
              end) l = Ok ds /\ Forall2 (dep_ok s a) l ds.
  Proof.
    intros C. induction l as [|b l IH]; intros F. exists []. split; auto.
    destruct IH as (ds & E & F2). intros x I. apply F. right. auto.
    destruct (F b (or_introl eq_refl)) as [c Q]. pose proof (co_act _ _ _ C _ _ _ Q) as (_ & _ & va & vb & Ha & Hb & _).
    exists (mkDep vb b (c_fac c) :: ds). cbn [rmap]. rewrite Q. unfold node_var at 1, vget. unfold var_at in Hb. rewrite Hb. cbn [rbind].
    change (var_at s b vb) in Hb. unfold comb_pos at 1. rewrite (find_node_own s fs b vb C Hb). cbn [rbind]. rewrite E. cbn [rbind]. split; auto.
    constructor; auto. split; auto. split; auto. simpl. eauto.
  Qed.

  Lemma act_keys s fs a b : core s fs -> In b (keys (gsize s) (nd_act (g_node s a))) <-> exists c, act s a b = Some c.
  Proof.
    intros C. rewrite keys_In. split. intros [_ Q]; auto. intros [c Q]. split; eauto. apply (co_act _ _ _ C) in Q. apply link_lt in Q. tauto.
  Qed.

  Lemma make_node_ok s fs e a va : core s fs -> env_ok e -> g_ev s a = None -> var_at s a va -> (exists i, i < vsize va /\ uw H s a i <> n0) ->
    exists nd s', make_node H e a s = Ret nd s' /\ keeps H s s' /\ g_pool s' = g_pool s /\ node_ok s a nd.
  Proof.
    intros C E Ev Ha P. destruct (merge_scaled OK H HG s fs e a va C E Ev Ha P) as (m & Em & Sc).
    unfold make_node. rewrite update_merged_eq, Em. cbn [lift obind].
    assert (K : keeps H s (set_merged s a m)) by (apply set_merged_keeps; exists e; auto).
    assert (C1 : core (set_merged s a m) fs) by (eapply keeps_core; eauto).
    set (s1 := set_merged s a m) in *. assert (Ha1 : var_at s1 a va) by exact Ha.
    unfold node_var at 1, vget. unfold var_at in Ha1. rewrite Ha1. cbn [lift obind]. unfold comb_pos at 1. change (var_at s1 a va) in Ha1.
    rewrite (find_node_own s1 fs a va C1 Ha1). cbn [lift obind].
    assert (EM : nd_merged (g_node s1 a) = Some m) by (unfold s1; simpl; rewrite fupd_eq; auto). rewrite EM.
    destruct (make_deps s1 fs a (e_ord e a (keys (gsize s1) (nd_act (g_node s1 a)))) C1) as (ds & Ed & F2).
    { intros b I. apply ord_In in I; auto. apply (act_keys s1 fs) in I; auto. }
    rewrite Ed. cbn [lift obind]. exists (mkSN a m ds), s1. splits; auto.
    split; auto. split; auto. exists va. split; auto. split; auto. exists (e_ord e a (keys (gsize s1) (nd_act (g_node s1 a)))). split.
    - rewrite (keeps_keys H s s1 a K). apply E.
    - eapply Forall2_imp; [|exact F2]. intros b d (E1 & E2 & c & Q & E3). split; auto. split; auto.
      apply (keeps_act H s s1 _ _ _ K) in Q as (c' & Q & Ef & _). exists c'. split; auto. congruence.
  Qed.

  Lemma keeps_var s s' a v : keeps H s s' -> (var_at s' a v <-> var_at s a v).
  Proof. intros K. unfold var_at. rewrite (kp_vars _ _ _ K). tauto. Qed.
  Lemma keeps_node_ok s s' a nd : keeps H s s' -> node_ok s' a nd -> node_ok s a nd.
  Proof.
    intros K (E1 & E2 & va & Ha & (U & NN & (c & Pc & V) & I1) & ks & P & F2). split; auto. split. rewrite <- (kp_ev _ _ _ K). auto.
    exists va. split. apply (keeps_var s s'); auto. split.
    - split; auto. split; auto. split; auto. exists c. split; auto. intros i L. rewrite V by auto. rewrite (keeps_uw H s s'); auto.
    - exists ks. split. rewrite <- (keeps_keys H s s' a K). auto. eapply Forall2_imp; [|exact F2].
      intros b d (D1 & D2 & c' & Q & D3). split; auto. split. apply (keeps_var s s'); auto.
      apply (keeps_act H s s' _ _ _ K) in Q as (c'' & Q & Ef & _). exists c''. split; auto. congruence.
  Qed.

  Lemma make_node_list_ok s fs e l : core s fs -> env_ok e ->
    (forall a, In a l -> g_ev s a = None /\ exists va, var_at s a va /\ exists i, i < vsize va /\ uw H s a i <> n0) ->
    exists nds s', make_node_list H e l s = Ret nds s' /\ keeps H s s' /\ g_pool s' = g_pool s /\ Forall2 (node_ok s) l nds.
  Proof.
    intros C E. revert s C. induction l as [|a l IH]; intros s C F.
    - exists [], s. splits; auto. apply keeps_refl.
    - destruct (F a (or_introl eq_refl)) as (Ev & va & Ha & P).
      destruct (make_node_ok s fs e a va C E Ev Ha P) as (nd & s1 & E1 & K1 & PO1 & O1).
      destruct (IH s1) as (nds & s2 & E2 & K2 & PO2 & O2). eapply keeps_core; eauto.
      { intros b I. destruct (F b (or_intror I)) as (Evb & vb & Hb & i & L & U). split. rewrite (kp_ev _ _ _ K1). auto.
        exists vb. split. apply (keeps_var s s1); auto. exists i. split; auto. rewrite (keeps_uw H s s1); auto. }
      exists (nd :: nds), s2. cbn [make_node_list]. rewrite E1. cbn [obind]. rewrite E2. cbn [obind]. splits; auto. eapply keeps_trans; eauto. congruence.
      constructor; auto. eapply Forall2_imp; [|exact O2]. intros b nd' O. eapply keeps_node_ok; eauto.
  Qed.

  (** {1 The value drawn} *)
  Variable s : gst.
  Hypothesis C : core s (g_all s).

  (** the values of the combination are inside the sizes *)
  Definition in_range (comb : list nat) : Prop := length comb = gsize s /\ forall b v k, var_at s b v -> nth_error comb b = Some k -> k < vsize v.

  (** the product of the factors of the node [a] *)
  Definition local a (va : var) (comb : list nat) (j : nat) : N :=
    (uw H s a j * prodL (fun b => bval (H (fac_act s a b)) va j (nth b comb 0%nat)) (keys (gsize s) (nd_act (g_node s a))))%num.

  Lemma local_nonneg a va comb j : g_ev s a = None -> var_at s a va -> in_range comb -> j < vsize va -> (n0 <= local a va comb j)%num.
  Proof.
    intros Ev Ha [Lc IR] L. apply (nmul_nonneg OK).
    - eapply uw_nonneg; eauto. rewrite (szn_at s a va Ha). auto.
    - apply (prodL_nonneg OK). intros b I. apply (act_keys s (g_all s)) in I as [c Q]; auto. unfold fac_act. rewrite Q.
      pose proof (co_act _ _ _ C _ _ _ Q) as (_ & _ & va' & vb & Ha' & Hb & Ef). assert (va' = va) by (eapply var_at_fun; eauto). subst va'.
      assert (Lb : nth b comb 0 < vsize vb). { apply (IR b vb); auto. apply nth_error_nth'. rewrite Lc. eapply var_at_lt; eauto. }
      destruct Ef as [Ef|Ef]. eapply bval_nonneg; eauto. eapply bval_nonneg'; eauto.
  Qed.

  Lemma deps_evidence a va comb ks ds : var_at s a va -> in_range comb -> Forall2 (dep_ok s a) ks ds ->
    exists evs, rmap (fun d => let* k := vget comb (d_pos d) in evidence_factor (H (d_fac d)) (d_sender d) k) ds = Ok evs /\
      Forall (unary va) evs /\ (forall f, In f evs -> unary_nonneg va f) /\
      forall j, j < vsize va -> prodL (fun f => uval f j) evs = prodL (fun b => bval (H (fac_act s a b)) va j (nth b comb 0)) ks.
  Proof.
    intros Ha [Lc IR]. induction 1 as [|b d ks ds (D1 & D2 & c & Q & D3) F2 IH].
    - exists []. splits; auto. intros f [].
    - destruct IH as (evs & E & U & NN & V).
      pose proof (co_act _ _ _ C _ _ _ Q) as (_ & _ & va' & vb & Ha' & Hb & Ef). assert (va' = va) by (eapply var_at_fun; eauto). subst va'.
      assert (Hd : d_sender d = vb) by (eapply var_at_fun; eauto).
      assert (Nb : nth_error comb b = Some (nth b comb 0)) by (apply nth_error_nth'; rewrite Lc; eapply var_at_lt; eauto).
      assert (Lb : nth b comb 0 < vsize vb) by (apply (IR b vb); auto).
      assert (X : exists x y, fvars H (c_fac c) = [x; y] /\ (vb = x /\ va = y \/ vb = y /\ va = x)) by (destruct Ef as [Ef|Ef]; eexists _, _; split; eauto).
      destruct X as (x & y & Efx & Ho).
      destruct (evidence_factor_ok _ x y vb va (nth b comb 0) (factor_binary H HG _ _ _ Efx) Ho Lb) as (m & Em & Um & _ & _ & Iv).
      exists (m :: evs). cbn [rmap]. unfold vget at 1. rewrite D1, Nb. cbn [rbind]. rewrite D3, Hd, Em. cbn [rbind]. rewrite E. cbn [rbind].
      assert (SW : forall j, bval (H (c_fac c)) vb (nth b comb 0) j = bval (H (c_fac c)) va j (nth b comb 0)).
      { intros j. destruct Ho as [[-> ->]|[-> ->]]. apply (bval_swap H HG _ x y); auto. symmetry. apply (bval_swap H HG _ x y); auto. }
      splits; auto.
      + intros f [<-|I]; auto. intros j L. rewrite Iv, SW by auto. destruct Ho as [[-> ->]|[-> ->]].
        eapply bval_nonneg'; eauto. eapply bval_nonneg; eauto.
      + intros j L. simpl. rewrite V, Iv, SW by auto. unfold fac_act at 2. rewrite Q. auto.
  Qed.

  Lemma sample_value_ok a nd va comb x : node_ok s a nd -> var_at s a va -> in_range comb ->
    exists k, sample_value H nd comb x = Ok k /\ k < vsize va /\
      (sumL (local a va comb) (seq 0 (vsize va)) = n0 -> k = vsize va - 1) /\
      (sumL (local a va comb) (seq 0 (vsize va)) <> n0 ->
         selects (vsize va) (fun j => (local a va comb j / sumL (local a va comb) (seq 0 (vsize va)))%num) x k).
  Proof.
    intros (E1 & Ev & va' & Ha' & (US & NS & (c & Pc & VS) & IS) & ks & P & F2) Ha IR.
    assert (va' = va) by (eapply var_at_fun; eauto). subst va'.
    destruct (deps_evidence a va comb ks (sn_deps nd) Ha IR F2) as (evs & Ee & U & NN & V).
    unfold sample_value. rewrite Ee. cbn [rbind].
    pose proof (unary_pos _ _ US) as Pv.
    set (ll := sn_static nd :: evs).
    assert (UL : Forall (unary va) ll) by (constructor; auto).
    assert (NL : forall f, In f ll -> unary_nonneg va f) by (intros f [<-|I]; auto).
    assert (PL : forall j, j < vsize va -> prodL (fun f => uval f j) ll = (c * local a va comb j)%num).
    { intros j L. simpl. rewrite VS, V by auto. unfold local. rewrite (prodL_perm OK _ _ _ P). ring. }
    change (Some (sn_static nd) :: map Some evs) with (map Some ll).
    assert (LN : forall j, j < vsize va -> (n0 <= local a va comb j)%num) by (intros; apply local_nonneg; auto).
    set (S := sumL (local a va comb) (seq 0 (vsize va))).
    assert (Nc : c <> n0) by (intros ->; eapply (nlt_irr OK); eauto).
    destruct (neqb S n0) eqn:ES.
    - apply (ok_eqb N OK) in ES. assert (Z : forall j, j < vsize va -> local a va comb j = n0).
      { intros j L. apply (nle_antisym OK); auto. apply (nle_trans OK) with S. 2: rewrite ES; apply (nle_refl OK).
        unfold S. clear - OK LN L. assert (G : forall m, j < m <= vsize va -> (local a va comb j <= sumL (local a va comb) (seq 0 m))%num).
        { induction m as [|m IH]; intros B. lia. rewrite (sumL_seq_S OK).
          assert (NM : (n0 <= sumL (local a va comb) (seq 0 m))%num) by (apply (sumL_nonneg OK); intros i I; apply in_seq in I; apply LN; lia).
          destruct (Nat.eq_dec j m) as [->|Nj].
          - pose proof (nle_add OK _ _ _ _ NM (nle_refl OK (local a va comb m))) as Q.
            replace (n0 + local a va comb m)%num with (local a va comb m) in Q by ring. exact Q.
          - apply (nle_trans OK) with (sumL (local a va comb) (seq 0 m)). apply IH; lia.
            pose proof (nle_add OK _ _ _ _ (nle_refl OK (sumL (local a va comb) (seq 0 m))) (LN m ltac:(lia))) as Q.
            replace (sumL (local a va comb) (seq 0 m) + n0)%num with (sumL (local a va comb) (seq 0 m)) in Q by ring. exact Q. }
        apply G. lia. }
      rewrite (merged_unaries_nan OK va ll UL) by (auto; try discriminate; intros k L; rewrite PL, Z by auto; ring).
      destruct US as [_ EF]. rewrite EF. cbn [vget nth_error rbind]. exists (vsize va - 1). splits; auto. lia. intros Q. contradiction.
    - apply (neqb_false OK) in ES.
      assert (EX : exists k, k < vsize va /\ prodL (fun f => uval f k) ll <> n0).
      { destruct (existsb (fun j => negb (neqb (local a va comb j) n0)) (seq 0 (vsize va))) eqn:Q.
        - apply existsb_exists in Q as (k & I & Q). apply in_seq in I. apply negb_true_iff, (neqb_false OK) in Q. exists k. split. lia.
          rewrite PL by lia. intros Z. apply (nmul_0 OK) in Z as [Z|Z]; auto.
        - exfalso. apply ES. unfold S. apply (sumL_0 OK). intros j I. destruct (neqb (local a va comb j) n0) eqn:Q'. apply (ok_eqb N OK); auto.
          exfalso. assert (X : existsb (fun j => negb (neqb (local a va comb j) n0)) (seq 0 (vsize va)) = true).
          { apply existsb_exists. exists j. split; auto. rewrite Q'. auto. } congruence. }
      destruct (merged_unaries_ok OK va ll UL ltac:(discriminate) NL EX) as (c2 & m & Pc2 & Em & Um & _ & _ & Vm & _). rewrite Em.
      rewrite (get_probabilities_ok OK m (proj1 Um)). cbn [rbind]. rewrite (unary_fsizes _ _ Um), all_combs_1.
      assert (Nc2 : c2 <> n0) by (intros ->; eapply (nlt_irr OK); eauto).
      assert (ESm : sumL (fval m) (map (fun k => [k]) (seq 0 (vsize va))) = (c2 * c * S)%num).
      { rewrite sumL_map. unfold S. rewrite <- (sumL_mul_l OK). apply sumL_ext. intros j I. apply in_seq in I.
        destruct (Vm j) as [Q _]. lia. rewrite PL in Q by lia. change (uval m j = (c2 * c * local a va comb j)%num). rewrite Q. ring. }
      rewrite ESm. assert (NZ : (c2 * c * S)%num <> n0).
      { intros Z. apply (nmul_0 OK) in Z as [Z|Z]; auto. apply (nmul_0 OK) in Z as [Z|Z]; auto. }
      rewrite (proj2 (neqb_false OK _ _) NZ). rewrite map_map.
      rewrite (map_ext_in _ (fun j => (local a va comb j / S)%num)).
      2:{ intros j I. apply in_seq in I. destruct (Vm j) as [Q _]. lia. rewrite PL in Q by lia. change (fval m [j]) with (uval m j). rewrite Q. field. auto. }
      pose proof (sample_discrete_spec OK (fun j => (local a va comb j / S)%num) (vsize va) x Pv) as SD.
      eexists. split; [reflexivity|]. split. apply SD. split. intros Q; contradiction. intros _. exact SD.
  Qed.

  (** {1 The factors of a variable} *)
  Variable A : spec.
  Hypothesis AB : abs s A.

  Definition node_facs a : list nat :=
    nd_un (g_node s a) ++ map (fac_dis s a) (keys (gsize s) (nd_dis (g_node s a))) ++ map (fac_act s a) (keys (gsize s) (nd_act (g_node s a))).

  Lemma dis_keys a b : In b (keys (gsize s) (nd_dis (g_node s a))) <-> exists c, dis s a b = Some c.
  Proof.
    rewrite keys_In. split. intros [_ Q]; auto. intros [c Q]. split; eauto. apply (co_dis _ _ _ C) in Q. apply link_lt in Q. tauto.
  Qed.

  Lemma node_facs_NoDup a : NoDup (node_facs a).
  Proof.
    unfold node_facs. apply NoDup_app_intro; [apply (co_und _ _ _ C)|apply NoDup_app_intro|].
    - assert (G : forall m, NoDup m -> (forall b, In b m -> exists c, dis s a b = Some c) -> NoDup (map (fac_dis s a) m)).
      { induction m as [|b m IHm]; simpl; intros NDm Im. constructor. inversion NDm as [|? ? Nb NDm']; subst. constructor; [|apply IHm; auto].
        intros I. apply in_map_iff in I as (b' & Ef & Ib'). destruct (Im b) as [c Q]; auto. destruct (Im b') as [c' Q']; auto.
        unfold fac_dis in Ef. rewrite Q, Q' in Ef. destruct (dis_pair H s C _ _ _ _ _ _ Q Q' (eq_sym Ef)) as [[_ ->]|[-> ->]]; auto. }
      apply G. apply keys_NoDup. intros b. apply dis_keys.
    - assert (G : forall m, NoDup m -> (forall b, In b m -> exists c, act s a b = Some c) -> NoDup (map (fac_act s a) m)).
      { induction m as [|b m IHm]; simpl; intros NDm Im. constructor. inversion NDm as [|? ? Nb NDm']; subst. constructor; [|apply IHm; auto].
        intros I. apply in_map_iff in I as (b' & Ef & Ib'). destruct (Im b) as [c Q]; auto. destruct (Im b') as [c' Q']; auto.
        unfold fac_act in Ef. rewrite Q, Q' in Ef. destruct (act_pair H s C _ _ _ _ _ _ Q Q' (eq_sym Ef)) as [[_ ->]|[-> ->]]; auto. }
      apply G. apply keys_NoDup. intros b. apply (act_keys s (g_all s)); auto.
    - intros f I J. apply in_map_iff in I as (b & <- & I), J as (b' & Ef & J). apply dis_keys in I as [d Q]. apply (act_keys s (g_all s)) in J as [c Q']; auto.
      unfold fac_dis, fac_act in Ef. rewrite Q, Q' in Ef. eapply mixed_pair; eauto.
    - intros f I J. destruct (co_un _ _ _ C a f I) as (_ & v & Hv & E). apply in_app_iff in J as [J|J]; apply in_map_iff in J as (b & Ef & J).
      + apply dis_keys in J as [d Q]. unfold fac_dis in Ef. rewrite Q in Ef. apply (co_dis _ _ _ C) in Q as (_ & _ & vx & vy & _ & _ & Q). rewrite Ef, E in Q.
        destruct Q; discriminate.
      + apply (act_keys s (g_all s)) in J as [d Q]; auto. unfold fac_act in Ef. rewrite Q in Ef. apply (co_act _ _ _ C) in Q as (_ & _ & vx & vy & _ & _ & Q). rewrite Ef, E in Q.
        destruct Q; discriminate.
  Qed.

  Lemma same_instance_refl v : same_instance v v = true.
  Proof. apply same_instance_spec. auto. Qed.

  Lemma node_facs_perm a va : var_at s a va ->
    Permutation (filter (fun f => existsb (same_instance va) (f_vars (H f))) (sp_facs A)) (node_facs a).
  Proof.
    intros Ha. rewrite <- (ab_all _ _ AB). apply NoDup_Permutation.
    - apply NoDup_filter, (co_fs _ _ _ C).
    - apply node_facs_NoDup.
    - intros f. rewrite filter_In, existsb_exists. unfold node_facs. rewrite !in_app_iff, !in_map_iff. split.
      + intros [I (w & Iw & Ew)]. apply same_instance_spec in Ew. subst w.
        destruct (co_fac _ _ _ C f I) as [(w & b & E & Hw & If)|(v1 & v2 & b1 & b2 & c & E & H1 & H2 & Hc & Ef)].
        * unfold fvars in E. rewrite E in Iw. destruct Iw as [->|[]]. rewrite (at_inj H s C a b va Ha Hw). auto.
        * right. unfold fvars in E. rewrite E in Iw. destruct Iw as [->|[->|[]]].
          -- assert (b1 = a) by (eapply at_inj; eauto). subst b1. destruct Hc as [Hc|Hc].
             ++ right. exists b2. split. unfold fac_act. rewrite Hc. auto. apply (act_keys s (g_all s)); eauto.
             ++ left. exists b2. split. unfold fac_dis. rewrite Hc. auto. apply dis_keys; eauto.
          -- assert (b2 = a) by (eapply at_inj; eauto). subst b2. destruct Hc as [Hc|Hc].
             ++ destruct (co_act_sym _ _ _ C _ _ _ Hc) as (d & Hd & Ed). right. exists b1. split. unfold fac_act. rewrite Hd. congruence. apply (act_keys s (g_all s)); eauto.
             ++ destruct (co_dis_sym _ _ _ C _ _ _ Hc) as (d & Hd & Ed). left. exists b1. split. unfold fac_dis. rewrite Hd. congruence. apply dis_keys; eauto.
      + intros [I|[(b & <- & I)|(b & <- & I)]].
        * destruct (co_un _ _ _ C a f I) as (J & v & Hv & E). split; auto. exists va. assert (v = va) by (eapply var_at_fun; eauto). subst v.
          unfold fvars in E. rewrite E. split. left; auto. apply same_instance_refl.
        * apply dis_keys in I as [d Q]. unfold fac_dis. rewrite Q. apply (co_dis _ _ _ C) in Q as (_ & J & v1 & v2 & H1 & H2 & Q). split; auto. exists va.
          assert (v1 = va) by (eapply var_at_fun; eauto). subst v1. split; [|apply same_instance_refl]. unfold fvars in Q. destruct Q as [Q|Q]; rewrite Q; simpl; auto.
        * apply (act_keys s (g_all s)) in I as [d Q]; auto. unfold fac_act. rewrite Q. apply (co_act _ _ _ C) in Q as (_ & J & v1 & v2 & H1 & H2 & Q). split; auto. exists va.
          assert (v1 = va) by (eapply var_at_fun; eauto). subst v1. split; [|apply same_instance_refl]. unfold fvars in Q. destruct Q as [Q|Q]; rewrite Q; simpl; auto.
  Qed.

  (** the values of the observed variables *)
  Definition comb_obs (comb : list nat) : Prop := forall b k, g_ev s b = Some k -> nth b comb 0 = k.

  Lemma val_comb comb b v : length comb = gsize s -> var_at s b v -> val (combine (sp_vars A) comb) v = nth b comb 0.
  Proof.
    intros L Hb. rewrite <- (ab_vars _ _ AB). apply (val_combine _ (vars_NoDup H s C) _ b); auto. apply nth_error_nth'. rewrite L. eapply var_at_lt; eauto.
  Qed.
  Lemma nth_replace comb a b k : a < length comb -> nth b (replace comb a k) 0 = if b =? a then k else nth b comb 0.
  Proof.
    intros L. rewrite replace_lset. destruct (Nat.eq_dec b a) as [->|Nb].
    - rewrite Nat.eqb_refl. apply nth_error_nth. apply nth_error_lset_eq; auto.
    - rewrite (proj2 (Nat.eqb_neq _ _) Nb). assert (Q : nth_error (lset comb a k) b = nth_error comb b) by (apply nth_error_lset_ne; auto).
      destruct (nth_error comb b) eqn:E.
      + rewrite (nth_error_nth _ _ _ Q), (nth_error_nth _ _ _ E). auto.
      + apply nth_error_None in E. rewrite !nth_overflow; auto. rewrite length_lset. auto.
  Qed.

  Lemma bin_val f v1 v2 va j kb comb : fvars H f = [v1; v2] -> v1 <> v2 -> (v1 = va -> val comb v1 = j /\ val comb v2 = kb) -> (v2 = va -> val comb v2 = j /\ val comb v1 = kb) ->
    v1 = va \/ v2 = va -> fval (H f) (map (val comb) (f_vars (H f))) = bval (H f) va j kb.
  Proof.
    intros E NE V1 V2 D. unfold fvars in E. unfold bval. rewrite E. simpl. destruct D as [D|D].
    - destruct (V1 D) as [-> ->]. subst v1. rewrite var_peqb_refl. auto.
    - destruct (V2 D) as [-> ->]. subst v2. rewrite var_peqb_ne by auto. auto.
  Qed.

  Lemma level_local a va comb j : g_ev s a = None -> var_at s a va -> in_range comb -> comb_obs comb ->
    level H A comb a va j = local a va comb j.
  Proof.
    intros Ev Ha [Lc IR] OB. unfold level, weight_of. rewrite (prodL_perm OK _ _ _ (node_facs_perm a va Ha)).
    assert (La : a < length comb) by (rewrite Lc; eapply var_at_lt; eauto).
    assert (Lr : length (replace comb a j) = gsize s) by (rewrite replace_lset, length_lset; auto).
    set (cj := replace comb a j) in *.
    assert (VA : val (combine (sp_vars A) cj) va = j) by (rewrite (val_comb cj a va) by auto; unfold cj; rewrite nth_replace, Nat.eqb_refl; auto).
    assert (VB : forall b vb, b <> a -> var_at s b vb -> val (combine (sp_vars A) cj) vb = nth b comb 0).
    { intros b vb Nb Hb. rewrite (val_comb cj b vb) by auto. unfold cj. rewrite nth_replace by auto. rewrite (proj2 (Nat.eqb_neq _ _) Nb). auto. }
    unfold node_facs, local, uw. rewrite !(prodL_app OK), !prodL_map.
    assert (E1 : prodL (fun f => fval (H f) (map (val (combine (sp_vars A) cj)) (f_vars (H f)))) (nd_un (g_node s a)) = prodL (fun f => uval (H f) j) (nd_un (g_node s a))).
    { apply prodL_ext. intros f I. destruct (co_un _ _ _ C a f I) as (_ & v & Hv & E). assert (v = va) by (eapply var_at_fun; eauto). subst v.
      unfold fvars in E. rewrite E. simpl. rewrite VA. auto. }
    assert (LK : forall b f, link H s (g_all s) a b f -> fval (H f) (map (val (combine (sp_vars A) cj)) (f_vars (H f))) = bval (H f) va j (nth b comb 0)).
    { intros b f (NE & _ & v1 & v2 & H1 & H2 & Q). assert (v1 = va) by (eapply var_at_fun; eauto). subst v1.
      assert (Nv : va <> v2) by (intros ->; apply NE; eapply at_inj; eauto).
      destruct Q as [Q|Q].
      - apply (bin_val f va v2); auto. intros E; congruence.
      - apply (bin_val f v2 va); auto. intros E; congruence. }
    rewrite E1. match goal with |- (?x * (?y * ?z))%num = (?x * ?y1 * ?z1)%num => cut (y = y1 /\ z = z1); [intros [-> ->]; ring|split] end.
    - apply prodL_ext. intros b I. apply dis_keys in I as [d Q]. unfold fac_dis. rewrite Q. pose proof (co_dis _ _ _ C _ _ _ Q) as LQ. rewrite (LK b) by auto.
      unfold evval. rewrite Q. destruct (g_ev s b) as [k|] eqn:Eb. 2:{ rewrite (co_hh _ _ _ C a b Ev Eb) in Q. discriminate. }
      rewrite (OB b k Eb). destruct LQ as (NE & _ & v1 & v2 & H1 & H2 & LQ). pose proof H2 as H2'. unfold var_at in H2'. rewrite H2'.
      assert (v1 = va) by (eapply var_at_fun; eauto). subst v1. destruct LQ as [LQ|LQ].
      apply (bval_swap H HG _ va v2); auto. symmetry. apply (bval_swap H HG _ v2 va); auto.
    - apply prodL_ext. intros b I. apply (act_keys s (g_all s)) in I as [d Q]; auto. unfold fac_act. rewrite Q. apply LK. apply (co_act _ _ _ C _ _ _ Q).
  Qed.
End Nodes.
