(** Sums over the assignments of the variables as sums over the unobserved
    nodes; the weight of an assignment as a product over the nodes and edges *)
From Coq Require Import String List Arith Bool Lia Permutation Relations.
From Verif Require Import Res Num Categoric Func FuncProofs GroupProofs FactorProofs FactorApi Special SpecialProofs
  Graph GraphLemmas Clusters Belief GraphInv EvidInv BeliefInv BigOp Tree BPStep GraphSpec Hist BeliefSpec.
Import ListNotations.
Open Scope nat_scope.

Lemma NoDup_flat_map {A B} (f : A -> list B) l : NoDup l -> (forall a, In a l -> NoDup (f a)) ->
  (forall a b x, In a l -> In b l -> In x (f a) -> In x (f b) -> a = b) -> NoDup (flat_map f l).
Proof.
  induction 1 as [|a l NI ND IH]; simpl; intros H1 H2. constructor.
  apply NoDup_app_intro.
  - apply H1; auto.
  - apply IH; eauto.
  - intros x I J. apply in_flat_map in J as (b & Ib & Jb). apply NI. rewrite (H2 a b x); auto.
Qed.

Lemma val_combine vs : NoDup vs -> forall (l : list nat) i v k, nth_error vs i = Some v -> nth_error l i = Some k -> val (combine vs l) v = k.
Proof.
  induction 1 as [|w vs NI ND IH]; intros l i v k Hv Hk. destruct i; discriminate.
  destruct l as [|m l]. destruct i; discriminate. simpl. destruct i as [|i]; simpl in Hv, Hk.
  - injection Hv as ->. injection Hk as ->. rewrite (proj2 (same_instance_spec v v) eq_refl). auto.
  - assert (Q : same_instance v w = false). { apply same_instance_false. intros ->. apply NI. eapply nth_error_In; eauto. }
    rewrite Q. eapply IH; eauto.
Qed.

Section Sums.
  Context {N : num} (OK : num_ok N).
  Add Field NFieldSums : (ok_field N OK).
  Variable k : kind.

  Lemma bigL_flat_map {A B} (F : B -> N) (g : A -> list B) l : (forall a b, In a l -> In b (g a) -> (n0 <= F b)%num) ->
    bigL k F (flat_map g l) = bigL k (fun a => bigL k F (g a)) l.
  Proof.
    induction l as [|a l IH]; simpl; intros NN; auto. rewrite (bigL_app OK), IH; auto.
    - intros c b I. apply (NN c b); simpl; auto.
    - intros b I. apply in_flat_map in I as (c & Ic & Ib). apply (NN c b); simpl; auto.
  Qed.
  Lemma bigL_one (f : nat -> N) n j : j < n -> (n0 <= f j)%num -> (forall i, i < n -> i <> j -> f i = n0) -> bigL k f (seq 0 n) = f j.
  Proof.
    intros L P Z. assert (Q : seq 0 n = seq 0 j ++ j :: seq (S j) (n - S j)).
    { replace n with (j + S (n - S j)) at 1 by lia. rewrite seq_app. simpl. auto. }
    assert (PM : Permutation (seq 0 n) (j :: seq 0 j ++ seq (S j) (n - S j))) by (rewrite Q; symmetry; apply Permutation_middle).
    rewrite (bigL_perm OK k f _ _ PM). simpl. rewrite (bigL_0 OK).
    - rewrite (op_comm OK), (op_0_l OK); auto.
    - intros a I. apply in_app_iff in I. rewrite !in_seq in I. apply Z; lia.
  Qed.

  Variable sz : nat -> nat.

  Lemma osum_0 ns (F : (nat -> nat) -> N) x : NoDup ns -> (forall y, varies sz ns x y -> F y = n0) -> osum k sz ns F x = n0.
  Proof.
    intros ND Z. rewrite (osum_factor OK k sz ns ND F F n0 x). ring. apply (nle_refl OK). intros y V. rewrite Z; auto. ring.
  Qed.

  (** nodes with only one value of positive weight *)
  Lemma osum_obs ns : NoDup ns -> forall (F : (nat -> nat) -> N) x, ext F -> (forall b, In b ns -> x b < sz b) ->
    (forall y b, In b ns -> y b <> x b -> F y = n0) -> (n0 <= F x)%num -> osum k sz ns F x = F x.
  Proof.
    induction 1 as [|a ns NI ND IH]; intros F x EF L Z P; simpl; auto.
    assert (FX : forall b, fupd x a (x a) b = x b) by (intros b; unfold fupd; destruct (Nat.eqb_spec b a); subst; auto).
    assert (Q : osum k sz ns F (fupd x a (x a)) = F x).
    { rewrite (osum_is_ext k sz ns F EF (fupd x a (x a)) x FX). apply IH; auto. intros; apply L; simpl; auto.
      intros y b I. apply (Z y b). simpl; auto. }
    rewrite (bigL_one (fun i => osum k sz ns F (fupd x a i)) (sz a) (x a)); auto.
    - apply L; simpl; auto.
    - rewrite Q; auto.
    - intros i Li Ni. apply osum_0; auto. intros y [V1 V2]. apply (Z y a); simpl; auto. rewrite V1 by auto. rewrite BigOp.fupd_eq. auto.
  Qed.

  Lemma osum_closed ns : forall (F : (nat -> nat) -> N) x y, (forall x y, (forall a, In a ns -> x a = y a) -> F x = F y) -> osum k sz ns F x = osum k sz ns F y.
  Proof.
    assert (G : forall ns seen (F : (nat -> nat) -> N) x y, (forall x y, (forall a, In a (seen ++ ns) -> x a = y a) -> F x = F y) -> (forall a, In a seen -> x a = y a) ->
      osum k sz ns F x = osum k sz ns F y).
    { clear. induction ns as [|a ns IH]; simpl; intros seen F x y C E.
      - apply C. rewrite app_nil_r. auto.
      - apply bigL_ext. intros i _. apply (IH (seen ++ [a])).
        + intros x' y' E'. apply C. intros b I. apply E'. rewrite <- app_assoc. auto.
        + intros b I. unfold fupd. destruct (Nat.eqb_spec b a); auto. apply in_app_iff in I as [I|[I|[]]]; auto. congruence. }
    intros F x y C. apply (G ns []); auto. intros a [].
  Qed.

  (** the assignments of the variables *)
  Lemma all_osum vs : forall i (F : asg -> N) x, (forall j v, nth_error vs j = Some v -> sz (i + j) = vsize v) ->
    (forall z, In z (all_asg vs) -> (n0 <= F z)%num) ->
    bigL k F (all_asg vs) = osum k sz (seq i (length vs)) (fun y => F (combine vs (map y (seq i (length vs))))) x.
  Proof.
    induction vs as [|v vs IH]; intros i F x SZ NN; simpl.
    - rewrite (op_comm OK), (op_0_l OK); auto. apply NN. simpl; auto.
    - pose proof (SZ 0 v eq_refl) as S0. rewrite Nat.add_0_r in S0. rewrite S0. rewrite bigL_flat_map by (intros a b Ia Ib; apply NN; simpl; apply in_flat_map; eauto).
      apply bigL_ext. intros m Im. rewrite bigL_map.
      etransitivity; [apply (IH (S i) (fun z => F ((v, m) :: z)) (fupd x i m))|].
      3: { apply (osum_ext OK). apply seq_NoDup. intros y [V1 V2]. rewrite V1 by (rewrite in_seq; lia). rewrite BigOp.fupd_eq; auto. }
      + intros j w Hj. replace (S i + j) with (i + S j) by lia. apply (SZ (S j)); auto.
      + intros z Iz. apply NN. simpl. apply in_flat_map. exists m. split; auto. apply in_map; auto.
  Qed.
End Sums.

Lemma all_asg_In vs x : In x (all_asg vs) <-> exists l, x = combine vs l /\ length l = length vs /\ forall i v m, nth_error vs i = Some v -> nth_error l i = Some m -> m < vsize v.
Proof.
  revert x; induction vs as [|v vs IH]; intros x; simpl.
  - split.
    + intros [<-|[]]. exists []. split; [auto|split; [auto|]]. intros [|i] v m Hv; discriminate.
    + intros ([|m l] & -> & L & _); auto.
  - rewrite in_flat_map. split.
    + intros (m & Im & I). apply in_map_iff in I as (y & <- & Iy). apply IH in Iy as (l & -> & L & B). exists (m :: l). simpl. split; [auto|split; [lia|]].
      intros [|i] w n Hw Hn; simpl in *. injection Hw as <-. injection Hn as <-. apply in_seq in Im. lia. eapply B; eauto.
    + intros ([|m l] & -> & L & B). discriminate. exists m. split. apply in_seq. split; [lia|]. apply (B 0 v m); auto.
      simpl. apply in_map. apply IH. exists l. simpl in L. split; [auto|split; [lia|]]. intros i w n Hw Hn. apply (B (S i) w n); auto.
Qed.

Section Weight.
  Context {N : num} (OK : num_ok N).
  Variable H : nat -> func N.
  Hypothesis HG : goods H.
  Notation gst := (gst (N:=N)).
  Implicit Types s : gst.
  Notation core := (core H).
  Add Field NFieldWeight : (ok_field N OK).

  Variable s : gst.
  Variable A : spec.
  Hypothesis C : core s (g_all s).
  Hypothesis AB : abs s A.
  Hypothesis CL : clean s.
  Notation sz := (szn s).
  Notation adj := (adjb s).
  Notation psi := (psi H s).
  Notation u := (uw H s).

  Lemma vars_NoDup : NoDup (g_vars s).
  Proof. eapply NoDup_map_inv. apply (co_vars _ _ _ C). Qed.
  Lemma at_inj a b v : var_at s a v -> var_at s b v -> a = b.
  Proof. intros Ha Hb. eapply (var_at_inj s a b v v); eauto. apply (co_vars _ _ _ C). Qed.
  Lemma ev_at a v : var_at s a v -> sp_evidence A v = g_ev s a.
  Proof. intros Ha. symmetry. apply (ab_ev _ _ AB a v Ha). Qed.
  Lemma obs_at a v : var_at s a v -> is_obs A v = is_some (g_ev s a).
  Proof. intros Ha. unfold is_obs. rewrite (ev_at a v Ha). destruct (g_ev s a); auto. Qed.

  (** the assignment of the variables for an assignment of the nodes *)
  Definition asg_of (y : nat -> nat) : asg := combine (g_vars s) (map y (seq 0 (gsize s))).
  Lemma val_asg y a v : var_at s a v -> val (asg_of y) v = y a.
  Proof.
    intros Ha. unfold asg_of. apply (val_combine _ vars_NoDup _ a); auto. pose proof (var_at_lt _ _ _ Ha) as L.
    rewrite nth_error_map. rewrite (nth_error_nth' (seq 0 (gsize s)) 0) by (rewrite seq_length; auto). rewrite seq_nth by auto. auto.
  Qed.

  (** {1 Decomposition of the weight} *)
  Definition fac_act a b : nat := match act s a b with Some c => c_fac c | None => 0 end.
  Definition fac_dis a b : nat := match dis s a b with Some c => c_fac c | None => 0 end.
  Definition unary_facs : list nat := flat_map (fun a => nd_un (g_node s a)) (hid s).
  Definition mixed_facs : list nat := flat_map (fun a => map (fac_dis a) (keys (gsize s) (nd_dis (g_node s a)))) (hid s).
  Fixpoint edge_facs (l : list nat) : list nat :=
    match l with
    | [] => []
    | a :: r => map (fac_act a) (filter (adj a) r) ++ edge_facs r
    end.
  Definition seen_facs := unary_facs ++ mixed_facs ++ edge_facs (hid s).
  Definition other_facs := filter (fun f => negb (mem f seen_facs)) (g_all s).

  Lemma unary_In f : In f unary_facs <-> exists a v, In a (hid s) /\ In f (nd_un (g_node s a)) /\ var_at s a v /\ fvars H f = [v].
  Proof.
    unfold unary_facs. rewrite in_flat_map. split.
    - intros (a & Ia & If). destruct (co_un _ _ _ C a f If) as (_ & v & Hv & E). exists a, v. auto.
    - intros (a & v & Ia & If & _). eauto.
  Qed.
  Lemma mixed_In f : In f mixed_facs <-> exists a b c, In a (hid s) /\ dis s a b = Some c /\ c_fac c = f.
  Proof.
    unfold mixed_facs. rewrite in_flat_map. split.
    - intros (a & Ia & If). apply in_map_iff in If as (b & <- & Ib). apply keys_In in Ib as (_ & c & E). exists a, b, c. split; auto. split; auto.
      unfold fac_dis. change (dis s a b = Some c) in E. rewrite E. auto.
    - intros (a & b & c & Ia & E & <-). exists a. split; auto. apply in_map_iff. exists b. split. unfold fac_dis. rewrite E. auto.
      apply keys_In. split; eauto. apply (co_dis _ _ _ C) in E. apply link_lt in E. tauto.
  Qed.
  Lemma edge_In l f : In f (edge_facs l) -> exists a b c, In a l /\ In b l /\ act s a b = Some c /\ c_fac c = f.
  Proof.
    induction l as [|a l IH]; simpl; intros I. contradiction. apply in_app_iff in I as [I|I].
    - apply in_map_iff in I as (b & <- & I). apply filter_In in I as [Ib Q]. apply adjb_eact in Q as [c Q]. exists a, b, c.
      unfold fac_act. rewrite Q. auto.
    - destruct (IH I) as (x & y & c & Ix & Iy & E & Ef). exists x, y, c. auto.
  Qed.
  Lemma edge_In' l a b c : In a l -> In b l -> act s a b = Some c -> In (c_fac c) (edge_facs l).
  Proof.
    revert a b c; induction l as [|z l IH]; simpl; intros a b c Ia Ib E. contradiction. apply in_app_iff.
    assert (AD : forall y d, act s z y = Some d -> In y l -> c_fac d = c_fac c -> In (c_fac c) (map (fac_act z) (filter (adj z) l))).
    { intros y d Ed Iy Ef. apply in_map_iff. exists y. split. unfold fac_act. rewrite Ed. auto. apply filter_In. split; auto. apply adjb_eact. exists d; auto. }
    destruct Ia as [->|Ia], Ib as [->|Ib].
    - exfalso. apply (co_act _ _ _ C) in E. destruct E as [E _]. congruence.
    - left. eapply AD; eauto.
    - left. destruct (co_act_sym _ _ _ C _ _ _ E) as (d & Ed & Ef). apply (AD a d); auto.
    - right. apply (IH a b); auto.
  Qed.

  Lemma act_pair a b c x y d : act s a b = Some c -> act s x y = Some d -> c_fac c = c_fac d -> (a = x /\ b = y) \/ (a = y /\ b = x).
  Proof.
    intros E1 E2 Ef. apply (co_act _ _ _ C) in E1 as (_ & _ & va & vb & Ha & Hb & Q1). apply (co_act _ _ _ C) in E2 as (_ & _ & vx & vy & Hx & Hy & Q2).
    rewrite Ef in Q1. destruct Q1 as [Q1|Q1], Q2 as [Q2|Q2]; rewrite Q1 in Q2; injection Q2 as -> ->.
    - left. split; eapply at_inj; eauto.
    - right. split; eapply at_inj; eauto.
    - right. split; eapply at_inj; eauto.
    - left. split; eapply at_inj; eauto.
  Qed.
  Lemma dis_pair a b c x y d : dis s a b = Some c -> dis s x y = Some d -> c_fac c = c_fac d -> (a = x /\ b = y) \/ (a = y /\ b = x).
  Proof.
    intros E1 E2 Ef. apply (co_dis _ _ _ C) in E1 as (_ & _ & va & vb & Ha & Hb & Q1). apply (co_dis _ _ _ C) in E2 as (_ & _ & vx & vy & Hx & Hy & Q2).
    rewrite Ef in Q1. destruct Q1 as [Q1|Q1], Q2 as [Q2|Q2]; rewrite Q1 in Q2; injection Q2 as -> ->.
    - left. split; eapply at_inj; eauto.
    - right. split; eapply at_inj; eauto.
    - right. split; eapply at_inj; eauto.
    - left. split; eapply at_inj; eauto.
  Qed.
  Lemma mixed_pair a b c x y d : act s a b = Some c -> dis s x y = Some d -> c_fac c = c_fac d -> False.
  Proof.
    intros E1 E2 Ef. pose proof (co_dis_sym _ _ _ C _ _ _ E2) as (d' & E2' & _).
    pose proof (co_act _ _ _ C _ _ _ E1) as (_ & _ & va & vb & Ha & Hb & Q1). pose proof (co_dis _ _ _ C _ _ _ E2) as (_ & _ & vx & vy & Hx & Hy & Q2).
    rewrite Ef in Q1. destruct Q1 as [Q1|Q1], Q2 as [Q2|Q2]; rewrite Q1 in Q2; injection Q2 as -> ->.
    - rewrite (at_inj a x _ Ha Hx), (at_inj b y _ Hb Hy) in E1. eapply co_excl; eauto.
    - rewrite (at_inj a y _ Ha Hy), (at_inj b x _ Hb Hx) in E1. eapply co_excl; eauto.
    - rewrite (at_inj a y _ Ha Hy), (at_inj b x _ Hb Hx) in E1. eapply co_excl; eauto.
    - rewrite (at_inj a x _ Ha Hx), (at_inj b y _ Hb Hy) in E1. eapply co_excl; eauto.
  Qed.
  Lemma obs_hid a b c : In a (hid s) -> dis s a b = Some c -> ~ In b (hid s).
  Proof.
    intros Ia E Ib. apply hid_In in Ia as [_ Ia], Ib as [_ Ib]. rewrite (co_hh _ _ _ C a b Ia Ib) in E. discriminate.
  Qed.

  Lemma edge_NoDup l : NoDup l -> NoDup (edge_facs l).
  Proof.
    induction 1 as [|a l NI ND IH]; simpl. constructor. apply NoDup_app_intro; auto.
    - assert (G : forall m, NoDup m -> incl m l -> NoDup (map (fac_act a) (filter (adj a) m))).
      { induction m as [|b m IHm]; simpl; intros NDm Im. constructor. inversion NDm as [|? ? Nb NDm']; subst. destruct (adj a b) eqn:Q; auto.
        - simpl. constructor. 2: apply IHm; auto; intros z Iz; apply Im; simpl; auto.
          intros I. apply in_map_iff in I as (b' & Ef & I). apply filter_In in I as [Ib' Q']. apply adjb_eact in Q as [c Q], Q' as [c' Q'].
          unfold fac_act in Ef. rewrite Q, Q' in Ef. destruct (act_pair _ _ _ _ _ _ Q Q' (eq_sym Ef)) as [[_ ->]|[-> ->]]; auto.
        - apply IHm; auto. intros z Iz; apply Im; simpl; auto. }
      apply G; auto. apply incl_refl.
    - intros f I J. apply in_map_iff in I as (b & <- & I). apply filter_In in I as [Ib Q]. apply adjb_eact in Q as [c Q].
      unfold fac_act in J. rewrite Q in J. apply edge_In in J as (x & y & d & Ix & Iy & E & Ef).
      destruct (act_pair _ _ _ _ _ _ E Q Ef) as [[-> ->]|[-> ->]]; auto.
  Qed.

  Lemma seen_NoDup : NoDup seen_facs.
  Proof.
    unfold seen_facs. apply NoDup_app_intro; [|apply NoDup_app_intro|].
    - apply NoDup_flat_map. apply hid_NoDup. intros a _. apply (co_und _ _ _ C).
      intros a b f _ _ I J. destruct (co_un _ _ _ C a f I) as (_ & v & Hv & E). destruct (co_un _ _ _ C b f J) as (_ & w & Hw & E').
      rewrite E in E'. injection E' as ->. eapply at_inj; eauto.
    - apply NoDup_flat_map. apply hid_NoDup.
      + intros a Ia. assert (G : forall m, NoDup m -> (forall b, In b m -> exists c, dis s a b = Some c) -> NoDup (map (fac_dis a) m)).
        { induction m as [|b m IHm]; simpl; intros NDm Im. constructor. inversion NDm as [|? ? Nb NDm']; subst. constructor; [|apply IHm; auto].
          intros I. apply in_map_iff in I as (b' & Ef & Ib'). destruct (Im b) as [c Q]; auto. destruct (Im b') as [c' Q']; auto.
          unfold fac_dis in Ef. rewrite Q, Q' in Ef. destruct (dis_pair _ _ _ _ _ _ Q Q' (eq_sym Ef)) as [[_ ->]|[-> ->]]; auto. }
        apply G. apply keys_NoDup. intros b I. apply keys_In in I as (_ & c & E). eauto.
      + intros a b f Ia Ib I J. apply in_map_iff in I as (x & <- & I), J as (y & Ef & J). apply keys_In in I as (_ & c & E), J as (_ & d & E').
        change (dis s a x = Some c) in E. change (dis s b y = Some d) in E'. unfold fac_dis in Ef. rewrite E, E' in Ef.
        destruct (dis_pair _ _ _ _ _ _ E E' (eq_sym Ef)) as [[-> _]|[-> ->]]; auto. exfalso. eapply obs_hid; eauto.
    - apply edge_NoDup, hid_NoDup.
    - intros f I J. apply mixed_In in I as (a & b & c & Ia & E & <-). apply edge_In in J as (x & y & d & _ & _ & E' & Ef).
      eapply mixed_pair; eauto.
    - intros f I J. apply unary_In in I as (a & v & _ & _ & _ & Ev). apply in_app_iff in J as [J|J].
      + apply mixed_In in J as (x & y & c & _ & E & Ef). apply (co_dis _ _ _ C) in E as (_ & _ & vx & vy & _ & _ & Q). rewrite Ef, Ev in Q.
        destruct Q; discriminate.
      + apply edge_In in J as (x & y & c & _ & _ & E & Ef). apply (co_act _ _ _ C) in E as (_ & _ & vx & vy & _ & _ & Q). rewrite Ef, Ev in Q.
        destruct Q; discriminate.
  Qed.
  Lemma seen_incl : incl seen_facs (g_all s).
  Proof.
    intros f I. unfold seen_facs in I. apply in_app_iff in I as [I|I]; [|apply in_app_iff in I as [I|I]].
    - apply unary_In in I as (a & v & _ & I & _). apply (co_un _ _ _ C a f I).
    - apply mixed_In in I as (a & b & c & _ & E & <-). apply (co_dis _ _ _ C) in E. apply E.
    - apply edge_In in I as (a & b & c & _ & _ & E & <-). apply (co_act _ _ _ C) in E. apply E.
  Qed.
  Lemma all_perm : Permutation (g_all s) (seen_facs ++ other_facs).
  Proof.
    apply NoDup_Permutation.
    - apply (co_fs _ _ _ C).
    - apply NoDup_app_intro. apply seen_NoDup. apply NoDup_filter, (co_fs _ _ _ C).
      intros f I J. apply filter_In in J as [_ J]. apply negb_true_iff, mem_false in J. auto.
    - intros f. rewrite in_app_iff. unfold other_facs. rewrite filter_In, negb_true_iff, mem_false. split.
      + intros I. destruct (in_dec Nat.eq_dec f seen_facs); auto.
      + intros [I|[I _]]; auto. apply seen_incl; auto.
  Qed.
  (** the other factors have only observed variables *)
  Lemma other_obs f v : In f other_facs -> In v (fvars H f) -> exists b, var_at s b v /\ g_ev s b <> None.
  Proof.
    intros I Iv. apply filter_In in I as [I NS]. apply negb_true_iff, mem_false in NS. unfold seen_facs in NS. rewrite !in_app_iff in NS.
    assert (DEC : forall a w, var_at s a w -> g_ev s a = None -> In a (hid s)).
    { intros a w Ha E. apply hid_In. split; auto. eapply var_at_lt; eauto. }
    destruct (co_fac _ _ _ C f I) as [(w & a & E & Hw & If)|(va & vb & a & b & c & E & Ha & Hb & Hc & Ef)].
    - rewrite E in Iv. destruct Iv as [<-|[]]. exists a. split; auto. intros Ev. apply NS. left. apply unary_In. exists a, w. splits; auto. eauto.
    - assert (OB : g_ev s a <> None /\ g_ev s b <> None).
      { destruct Hc as [Hc|Hc].
        - exfalso. assert (EA : eact s a b) by (exists c; auto). destruct (CL a b EA) as [Ea Eb]. apply NS. right. right. rewrite <- Ef. apply (edge_In' (hid s) a b c); eauto.
        - destruct (co_dis_sym _ _ _ C _ _ _ Hc) as (c' & Hc' & Ef'). split; intros Ev; apply NS; right; left; apply mixed_In.
          + exists a, b, c. splits; eauto.
          + exists b, a, c'. splits; eauto. congruence. }
      rewrite E in Iv. destruct Iv as [<-|[<-|[]]]; [exists a|exists b]; split; tauto.
  Qed.

  Lemma swapped_mixed y a b c : In a (hid s) -> dis s a b = Some c -> (forall b k, g_ev s b = Some k -> y b = k) ->
    swapped H A (c_fac c) (asg_of y) = evval H s a (y a) b.
  Proof.
    intros Ia E Hy. pose proof (obs_hid a b c Ia E) as Nb. pose proof (co_dis _ _ _ C _ _ _ E) as (NE & _ & va & vb & Ha & Hb & Q).
    apply hid_In in Ia as [_ Ia]. destruct (g_ev s b) as [k|] eqn:Eb.
    2:{ exfalso. apply Nb. apply hid_In. split; auto. eapply var_at_lt; eauto. }
    assert (Nv : va <> vb) by (intros ->; apply NE; eapply at_inj; eauto).
    unfold evval. rewrite E, Eb. unfold var_at in Hb. rewrite Hb. change (var_at s b vb) in Hb. unfold swapped, bval.
    assert (O1 : is_obs A va = false) by (rewrite (obs_at a va Ha), Ia; auto). assert (O2 : is_obs A vb = true) by (rewrite (obs_at b vb Hb), Eb; auto).
    unfold fvars in Q. destruct Q as [Q|Q]; rewrite Q; rewrite ?O1, ?O2, (val_asg y a va Ha), (val_asg y b vb Hb), (Hy b k Eb); simpl.
    - rewrite var_peqb_ne by auto. auto.
    - rewrite var_peqb_refl. auto.
  Qed.
  Lemma swapped_edge y a b c : act s a b = Some c -> swapped H A (c_fac c) (asg_of y) = psi a b (y a) (y b).
  Proof.
    intros E. assert (EA : eact s a b) by (exists c; auto). destruct (CL a b EA) as [Ea Eb].
    pose proof (co_act _ _ _ C _ _ _ E) as (NE & _ & va & vb & Ha & Hb & Q).
    assert (Nv : va <> vb) by (intros ->; apply NE; eapply at_inj; eauto).
    rewrite (psi_val H s a b c va) by auto. unfold swapped, bval.
    assert (O1 : is_obs A va = false) by (rewrite (obs_at a va Ha), Ea; auto). assert (O2 : is_obs A vb = false) by (rewrite (obs_at b vb Hb), Eb; auto).
    unfold fvars in Q. destruct Q as [Q|Q]; rewrite Q; rewrite ?O1, ?O2, (val_asg y a va Ha), (val_asg y b vb Hb); simpl.
    - rewrite var_peqb_refl. auto.
    - rewrite var_peqb_ne by auto. auto.
  Qed.

  (** [y] gives their values to the observed nodes *)
  Definition obs_ok (y : nat -> nat) : Prop := forall b k, g_ev s b = Some k -> y b = k.
  Definition const_wt : N := prodL (fun f => swapped H A f (asg_of (fun b => match g_ev s b with Some k => k | None => 0 end))) other_facs.

  Lemma prodL_flat_map {T U} (f : U -> N) (g : T -> list U) l : prodL f (flat_map g l) = prodL (fun a => prodL f (g a)) l.
  Proof. induction l as [|a l IH]; simpl; auto. rewrite (prodL_app OK), IH. auto. Qed.

  Lemma edge_wt y l : incl l (hid s) -> prodL (fun f => swapped H A f (asg_of y)) (edge_facs l) = edges_wt adj psi l y.
  Proof.
    induction l as [|a l IH]; simpl; intros I; auto. rewrite (prodL_app OK), IH by (intros z Iz; apply I; simpl; auto). f_equal.
    rewrite prodL_map. apply prodL_ext. intros b Ib. apply filter_In in Ib as [_ Q]. apply adjb_eact in Q as [c Q].
    unfold fac_act. rewrite Q. apply swapped_edge; auto.
  Qed.

  Theorem weight_nodes y : obs_ok y -> weight_swapped H A (asg_of y) = (const_wt * wt adj psi u (hid s) y)%num.
  Proof.
    intros Hy. unfold weight_swapped. rewrite <- (ab_all _ _ AB). rewrite (prodL_perm OK _ _ _ all_perm). rewrite (prodL_app OK).
    assert (Q1 : prodL (fun f => swapped H A f (asg_of y)) other_facs = const_wt).
    { unfold const_wt. apply prodL_ext. intros f I. unfold swapped.
      assert (V : forall v, In v (fvars H f) -> val (asg_of y) v = val (asg_of (fun b => match g_ev s b with Some k => k | None => 0 end)) v).
      { intros v Iv. destruct (other_obs f v I Iv) as (b & Hb & Ob). rewrite !(val_asg _ b v Hb). destruct (g_ev s b) as [k|] eqn:E; [|congruence]. apply Hy; auto. }
      unfold fvars in V. destruct (f_vars (H f)) as [|v [|w [|z l]]]; auto.
      - f_equal. apply map_ext_in. auto.
      - rewrite (V v), (V w) by (simpl; auto). auto.
      - f_equal. apply map_ext_in. auto. }
    rewrite Q1. unfold seen_facs. rewrite !(prodL_app OK). rewrite (edge_wt y (hid s)) by apply incl_refl. unfold wt.
    assert (Q2 : (prodL (fun f => swapped H A f (asg_of y)) unary_facs * prodL (fun f => swapped H A f (asg_of y)) mixed_facs =
      prodL (fun a => u a (y a)) (hid s))%num).
    { unfold unary_facs, mixed_facs. rewrite !prodL_flat_map. rewrite <- (prodL_mul OK). apply prodL_ext. intros a Ia. unfold uw. f_equal.
      - apply prodL_ext. intros f If. destruct (co_un _ _ _ C a f If) as (_ & v & Hv & E). unfold swapped, fvars in *. rewrite E. simpl.
        rewrite (val_asg y a v Hv). auto.
      - rewrite prodL_map. apply prodL_ext. intros b Ib. apply keys_In in Ib as (_ & c & E). change (dis s a b = Some c) in E.
        unfold fac_dis. rewrite E. apply swapped_mixed; auto. }
    rewrite <- Q2. ring.
  Qed.

  (** {1 Sums} *)
  Definition x_ev (b : nat) : nat := match g_ev s b with Some k => k | None => 0 end.
  Definition obs : list nat := filter (fun a => is_some (g_ev s a)) (seq 0 (gsize s)).
  Lemma obs_In a : In a obs <-> a < gsize s /\ g_ev s a <> None.
  Proof.
    unfold obs. rewrite filter_In, in_seq, is_some_true. split.
    - intros [L [k E]]. split. lia. congruence.
    - intros [L E]. split. lia. destruct (g_ev s a); eauto. congruence.
  Qed.
  Lemma nodes_perm : Permutation (seq 0 (gsize s)) (hid s ++ obs).
  Proof.
    apply NoDup_Permutation. apply seq_NoDup. apply NoDup_app_intro. apply hid_NoDup. apply NoDup_filter, seq_NoDup.
    - intros a I J. apply hid_In in I. apply obs_In in J. tauto.
    - intros a. rewrite in_app_iff, hid_In, obs_In, in_seq. destruct (g_ev s a); split; intros; try lia; intuition (auto; try congruence; lia).
  Qed.
  Lemma x_ev_ok : obs_ok x_ev.
  Proof. intros b k E. unfold x_ev. rewrite E. auto. Qed.
  Lemma varies_obs y : varies sz (hid s) x_ev y -> obs_ok y.
  Proof. intros [V1 V2] b k E. rewrite V1. apply x_ev_ok; auto. intros I. apply hid_In in I. destruct I; congruence. Qed.

  Lemma agrees_asg y : agrees A (asg_of y) = forallb (fun a => match g_ev s a with Some k => Nat.eqb (y a) k | None => true end) (seq 0 (gsize s)).
  Proof.
    unfold agrees. rewrite <- (ab_vars _ _ AB). apply eq_true_iff_eq. rewrite !forallb_forall. split.
    - intros F a I. apply in_seq in I. destruct (var_at_ex s a) as [v Hv]; [lia|]. specialize (F v (nth_error_In _ _ Hv)).
      rewrite (ev_at a v Hv), (val_asg y a v Hv) in F. auto.
    - intros F v I. apply In_nth_error in I as [a Hv]. change (var_at s a v) in Hv. rewrite (ev_at a v Hv), (val_asg y a v Hv). apply F.
      apply in_seq. pose proof (var_at_lt _ _ _ Hv). lia.
  Qed.
  Lemma agrees_obs y : agrees A (asg_of y) = true <-> obs_ok y.
  Proof.
    rewrite agrees_asg, forallb_forall. split.
    - intros F b k E. specialize (F b). rewrite E in F. apply Nat.eqb_eq. apply F. apply in_seq. pose proof (ev_lt H _ _ _ _ C E). lia.
    - intros Hy a _. destruct (g_ev s a) as [k|] eqn:E; auto. apply Nat.eqb_eq; auto.
  Qed.

  (** sum (or maximum) of a weight over the assignments that agree with the
      evidences *)
  Definition total (k : kind) (W : asg -> N) (P : asg -> bool) : N :=
    bigL k (fun x => if agrees A x && P x then W x else n0) (all_asg (sp_vars A)).
  Lemma total_sum W P : total SUM W P = mass W A P.
  Proof. unfold total, mass, bigL, sumL. auto. Qed.

  Lemma asg_range x : In x (all_asg (g_vars s)) -> exists y, x = asg_of y /\ forall a, a < gsize s -> y a < sz a.
  Proof.
    intros I. apply all_asg_In in I as (l & -> & L & B). exists (fun a => nth a l 0). unfold asg_of. split.
    - f_equal. unfold gsize. rewrite <- L. clear. induction l as [|m l IH]; simpl; auto. f_equal. rewrite <- seq_shift, map_map. auto.
    - intros a La. destruct (var_at_ex s a La) as [v Hv]. rewrite (szn_at _ _ _ Hv). unfold gsize in La. apply (B a v); auto.
      apply nth_error_nth'. lia.
  Qed.
  Lemma asg_in y : (forall a, a < gsize s -> y a < sz a) -> In (asg_of y) (all_asg (g_vars s)).
  Proof.
    intros R. apply all_asg_In. exists (map y (seq 0 (gsize s))). splits; auto. rewrite map_length, seq_length. auto.
    intros i v m Hv Hm. pose proof (var_at_lt _ _ _ Hv) as L. rewrite nth_error_map in Hm.
    rewrite (nth_error_nth' (seq 0 (gsize s)) 0) in Hm by (rewrite seq_length; auto). rewrite seq_nth in Hm by auto. injection Hm as <-.
    simpl. rewrite <- (szn_at _ _ _ Hv). apply R; auto.
  Qed.

  Definition wnonneg (W : asg -> N) : Prop := forall y, (forall a, a < gsize s -> y a < sz a) -> (n0 <= W (asg_of y))%num.

  Theorem total_nodes k W P : wnonneg W ->
    total k W P = osum k sz (hid s) (fun y => if P (asg_of y) then W (asg_of y) else n0) x_ev.
  Proof.
    intros NN. unfold total. rewrite <- (ab_vars _ _ AB).
    set (G := fun y => if agrees A (asg_of y) && P (asg_of y) then W (asg_of y) else n0).
    assert (EA : forall y z, (forall a, y a = z a) -> asg_of y = asg_of z).
    { intros y z E. unfold asg_of. f_equal. apply map_ext. auto. }
    assert (EG : ext G). { intros y z E. unfold G. rewrite (EA y z E). auto. }
    assert (EV : forall b, In b obs -> x_ev b < sz b).
    { intros b I. apply obs_In in I as [L E]. unfold x_ev. destruct (g_ev s b) as [m|] eqn:Q; [|congruence].
      destruct (co_ev _ _ _ C b m Q) as (v & Hv & Lm). rewrite (szn_at _ _ _ Hv). auto. }
    rewrite (all_osum OK k sz (g_vars s) 0 _ x_ev).
    - change (osum k sz (seq 0 (gsize s)) G x_ev = osum k sz (hid s) (fun y => if P (asg_of y) then W (asg_of y) else n0) x_ev).
      rewrite (osum_perm OK k sz _ _ nodes_perm (seq_NoDup _ _) G x_ev EG), osum_app.
      apply (osum_ext OK). apply hid_NoDup. intros y V. pose proof (varies_obs y V) as OB. pose proof V as [V1 V2].
      assert (RG : forall a, a < gsize s -> y a < sz a).
      { intros a La. destruct (g_ev s a) as [m|] eqn:E. 2: apply V2; apply hid_In; auto. rewrite V1. apply EV. apply obs_In. split; auto. congruence.
        intros I. apply hid_In in I. destruct I; congruence. }
      rewrite (osum_obs OK k sz obs).
      + unfold G. rewrite (proj2 (agrees_obs y) OB). auto.
      + apply NoDup_filter, seq_NoDup.
      + auto.
      + intros b I. apply RG. apply obs_In in I. tauto.
      + intros z b I NE. unfold G. destruct (agrees A (asg_of z)) eqn:Q; auto. exfalso. apply agrees_obs in Q. apply obs_In in I as [_ I].
        destruct (g_ev s b) as [m|] eqn:E; [|congruence]. apply NE. rewrite (Q b m E), (OB b m E). auto.
      + unfold G. destruct (agrees _ _ && _); [apply NN; auto|apply (nle_refl OK)].
    - intros j v Hv. simpl. apply szn_at; auto.
    - intros x I. destruct (agrees A x && P x); [|apply (nle_refl OK)]. destruct (asg_range x I) as (y & -> & R). auto.
  Qed.

  (** the assignments that give the value [j] to the node [a] *)
  Theorem total_node k W a v R j : wnonneg W -> var_at s a v -> Permutation (hid s) (a :: R) -> j < sz a ->
    total k W (takes v j) = osum k sz R (fun y => W (asg_of y)) (fupd x_ev a j).
  Proof.
    intros NN Ha PM Lj. rewrite total_nodes by auto.
    assert (EA : forall y z, (forall a, y a = z a) -> asg_of y = asg_of z).
    { intros y z E. unfold asg_of. f_equal. apply map_ext. auto. }
    assert (NDp : NoDup (a :: R)) by (eapply Permutation_NoDup; [exact PM|apply hid_NoDup]). inversion NDp as [|? ? NI ND]; subst.
    assert (TK : forall y, takes v j (asg_of y) = Nat.eqb (y a) j) by (intros y; unfold takes; rewrite (val_asg y a v Ha); auto).
    rewrite (osum_perm OK k sz _ _ PM (hid_NoDup s)). 2:{ intros y z E. rewrite (EA y z E). auto. }
    simpl.
    assert (OB : forall i y, i < sz a -> varies sz R (fupd x_ev a i) y -> y a = i /\ forall b, b < gsize s -> y b < sz b).
    { intros i y Li [V1 V2]. assert (Ya : y a = i) by (rewrite V1 by auto; apply BigOp.fupd_eq). split; auto. intros b Lb.
      destruct (in_dec Nat.eq_dec b R) as [I|I]; auto. destruct (Nat.eq_dec b a) as [->|Nb]. rewrite Ya; auto.
      rewrite V1, BigOp.fupd_ne by auto. destruct (g_ev s b) as [m|] eqn:E.
      - unfold x_ev. rewrite E. destruct (co_ev _ _ _ C b m E) as (w & Hw & Lm). rewrite (szn_at _ _ _ Hw). auto.
      - exfalso. assert (I' : In b (hid s)) by (apply hid_In; auto). apply (Permutation_in _ PM) in I' as [->|I']; auto. }
    rewrite (bigL_one OK k (fun i => osum k sz R (fun y => if takes v j (asg_of y) then W (asg_of y) else n0) (fupd x_ev a i)) (sz a) j); auto.
    - apply (osum_ext OK); auto. intros y V. destruct (OB j y Lj V) as [E _]. rewrite TK, E, Nat.eqb_refl. auto.
    - apply (osum_nonneg OK); auto. intros y V. destruct (takes v j (asg_of y)); [|apply (nle_refl OK)]. apply NN. eapply OB; eauto.
    - intros i Li Ni. apply (osum_0 OK); auto. intros y V. destruct (OB i y Li V) as [E _]. rewrite TK, E. rewrite (proj2 (Nat.eqb_neq i j)); auto.
  Qed.
End Weight.
