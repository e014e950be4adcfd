(** The calls on a random field never go through undefined behaviour, under the
    conditions of FieldSafeSpec.v *)
From Coq Require Import String List Arith Bool Lia Permutation Relations.
From Verif Require Import Res Num Categoric Combs Func FuncProofs GroupProofs FactorProofs FactorApi Special SpecialProofs
  Graph GraphLemmas Clusters Belief Query GraphInv EvidInv BeliefInv BigOp Tree Cycle BPStep BPRun GraphSpec Hist P_Graph BeliefSpec Sums Exact BeliefHist Queries
  Parts JointSpec Joint SafeSpec Safe Train TrainHist Coherent TrainSpec Gradient TrainInv GradientRun Plan FieldSafeSpec.
Import ListNotations.
Open Scope nat_scope.

Section FieldSafe.
  Context {N : num} (OK : num_ok N).
  Notation gst := (gst (N:=N)).
  Notation rst := (rst (N:=N)).
  Notation rop := (rop (N:=N)).
  Implicit Types s : rst.

  (** {1 Outcomes} *)
  Notation nu := (@nu (stops N) _).
  Notation ook := (@ook (stops N) _ _).
  Definition oaw {B} (o : out rst B) : Prop := match o with Undef => False | NotNum => stops N | Ret _ t | Thr t => awake (r_g t) | _ => True end.
  Definition ofin {B} s (o : out rst B) : Prop := ofull True s o /\ oaw o.
  Lemma ofin_bind {B D} s (o : out rst B) (f : B -> rst -> out rst D) : ofin s o ->
    (forall b t, o = Ret b t -> cstep True s t -> full True t -> awake (r_g t) -> ofin s (f b t)) -> ofin s (obind o f).
  Proof. intros [F A] K. destruct o; simpl in *; try (split; simpl; tauto). destruct F. apply K; auto. Qed.
  Lemma ofin_from {B} s t (o : out rst B) : cstep True s t -> ofin t o -> ofin s o.
  Proof. intros C [F A]. split; auto. eapply ofull_from; eauto. Qed.
  Lemma ofin_fold {B} (f : B -> rst -> out rst unit) l s : forall t, cstep True s t -> full True t -> awake (r_g t) ->
    (forall b t, In b l -> cstep True s t -> full True t -> awake (r_g t) -> ofin s (f b t)) -> ofin s (ofold f l t).
  Proof. induction l as [|b l IH]; simpl; intros t C F A K. split; simpl; auto. apply ofin_bind; auto. Qed.
  Lemma ofin_catch s o : ofin s o -> ofin s (try_catch o).
  Proof. intros [F A]. split. apply ofull_catch; auto. destruct o; simpl in *; auto. Qed.
  Lemma awake_g (g g' : gst) : g_vars g' = g_vars g -> g_node g' = g_node g -> g_ev g' = g_ev g -> g_pool g' = g_pool g -> g_last g' = g_last g -> awake g -> awake g'.
  Proof. intros E1 E2 E3 E4 E5 [A B]. split. congruence. rewrite E5. intros L. apply (warm_ext g); auto. Qed.

  (** {1 Insertions} *)
  Lemma env_id_ok' : env_ok env_id.
  Proof. split; intros; apply Permutation_refl. Qed.
  Lemma add_fin s d : full True s -> awake (r_g s) -> (forall f, d = Some f -> object s f) -> ofin s (on_g (fun g => add_distribution (r_h s) g d) s).
  Proof.
    intros F A Hd. split. { apply calm_full; auto. apply (on_g_add_coh); auto. apply F. apply add_calm. }
    pose proof (fl_coh _ _ F) as C. pose proof (coh_solid True s C) as HG.
    assert (SU : safe_use (r_h s) (spec_of (r_g s)) (OAdd d)). { unfold safe_use, safe_query. simpl. splits; auto. intros n Q. discriminate Q. }
    pose proof (call_defined (r_h s) HG _ _ (OAdd d) (r_g s) (ch_inv _ _ C) (coh_abs True s C) (ch_clean _ _ C I) A env_id_ok' SU) as [Q0 Q1].
    pose proof (fun g => call_awake (r_h s) HG _ _ (OAdd d) (r_g s) g (ch_inv _ _ C) (coh_abs True s C) (ch_clean _ _ C I) A env_id_ok' SU) as Q2.
    simpl call in *. unfold on_g. destruct (add_distribution (r_h s) (r_g s) d) as [[] g|g| | |]; simpl in *; auto.
    - apply Q2. right. eauto.
    - apply Q2. left. auto.
  Qed.

  Lemma add_const_fin s d : full True s -> awake (r_g s) -> (forall f, d = Some f -> object s f) -> ofin s (add_const d s).
  Proof.
    intros F A Hd. split. { apply calm_full; auto. apply (add_const_coh); auto. apply F. apply add_const_calm. }
    pose proof (add_fin s d F A Hd) as [_ Q]. unfold add_const. destruct (on_g _ s) as [[] t|t| | |]; simpl in *; auto. destruct d; auto.
  Qed.
  Lemma alloc_fin s c : full True s -> built c -> cstep True s (snd (alloc s c)) /\ full True (snd (alloc s c)).
  Proof.
    intros F Hb. assert (ST : cstep True s (snd (alloc s c))) by (apply alloc_coh; auto; apply F). split; auto.
    constructor. apply ST. eapply tinv_le. apply ST. auto. apply F. apply (fl_en _ _ F).
  Qed.
  Lemma copy_const_fin s f : full True s -> awake (r_g s) -> ofin s (copy_const f s).
  Proof.
    intros F A. unfold copy_const. pose proof (ri_built _ (ch_r _ _ (fl_coh _ _ F)) f) as Hb.
    destruct (factor_clone_transformed_ok (r_h s f)) as (c & E & _). { apply built_solid; auto. }
    rewrite E. cbn [lift obind alloc]. destruct (alloc_fin s c F) as [ST F']. { eapply b_clone; eauto. }
    eapply ofin_from; [exact ST|]. apply add_const_fin; auto. intros k [= <-]. unfold object. simpl. lia.
  Qed.
  Lemma absorb_const_fin s l copy : full True s -> awake (r_g s) -> (forall f, In f l -> object s f) -> ofin s (absorb_const l copy s).
  Proof.
    intros F A Hl. unfold absorb_const. apply ofin_fold; auto. apply full_refl; auto.
    intros f t J ST Ft At. apply ofin_catch. eapply ofin_from. exact ST. destruct copy. apply copy_const_fin; auto.
    apply add_const_fin; auto. intros k [= <-]. unfold object in *. pose proof (rl_top _ _ (cs_le _ _ _ ST)). specialize (Hl f J). lia.
  Qed.

  (** the objects whose weight is set are exponential factors *)
  Lemma weight_fold s w l : (forall b, In b l -> f_exp (r_h s (bt_fac b)) <> None) -> exists t, ofold (base_set_weight w) l s = Ret tt t /\
    r_g t = r_g s /\ r_tuners t = r_tuners s /\ (forall f, f_exp (r_h s f) <> None -> f_exp (r_h t f) <> None).
  Proof.
    revert s. induction l as [|b l IH]; intros s Hl. exists s. auto.
    simpl. unfold base_set_weight at 1. unfold exp_set_weight. destruct (f_exp (r_h s (bt_fac b))) eqn:E; [|exfalso; apply (Hl b); simpl; auto].
    cbn [lift obind]. match goal with |- context [ofold _ l ?u] => set (s1 := u) end.
    assert (M : forall f, f_exp (r_h s f) <> None -> f_exp (r_h s1 f) <> None).
    { intros f Hf. unfold s1. cbn [r_h set_h]. unfold fupd. destruct (_ =? _); auto. simpl. discriminate. }
    destruct (IH s1) as (t & E1 & E2 & E3 & E4). { intros b0 J. apply M, Hl. simpl; auto. }
    exists t. splits; auto.
  Qed.
  Lemma make_tuner_defined s f : full True s -> In f (g_all (r_g s)) -> exists t, make_tuner s f = Ok t /\ bt_fac t = f.
  Proof.
    intros F J. pose proof (proj1 (ch_inv _ _ (fl_coh _ _ F))) as C. apply (make_tuner_succeeds True). apply F.
    - intros v Jv. destruct (co_fac _ _ _ C f J) as [(x & a & E & V & _)|(x & y & a & b & c & E & Vx & Vy & _)]; unfold fvars in E; rewrite E in Jv; simpl in Jv.
      + destruct Jv as [<-|[]]. eapply nth_error_In; exact V.
      + destruct Jv as [<-|[<-|[]]]; eapply nth_error_In; eauto.
    - destruct (co_fac _ _ _ C f J) as [(x & a & E & V & _)|(x & y & a & b & c & E & Vx & Vy & _)]; eauto.
  Qed.
  Lemma tuners_exp s t b : rinv s -> In t (r_tuners s) -> In b (bases t) -> f_exp (r_h s (bt_fac b)) <> None.
  Proof.
    intros F Jt Jb. apply (ri_exp _ F). apply in_concat. exists (map bt_fac (bases t)). split.
    unfold tunable_clusters. apply in_map_iff. eauto. apply in_map; auto.
  Qed.
  Lemma add_tunable_fin s d share : full True s -> awake (r_g s) -> (forall f, d = Some f -> expo s f) ->
    (forall f, d = Some f -> share <> None -> on_hidden s f) -> ofin s (add_tunable d share s).
  Proof.
    intros F A Hd HH. split. { apply (add_tunable_full); auto. }
    pose proof (add_fin s d F A (fun f E => proj1 (Hd f E))) as [Q1 Q2]. pose proof (on_g_add s d (ch_r _ _ (fl_coh _ _ F)) (fun f E => proj1 (Hd f E))) as Q3.
    unfold add_tunable. destruct (on_g _ s) as [[] s1|s1| | |]; cbn [obind oaw ofull] in *; auto.
    destruct Q1 as [ST F1]. destruct Q3 as (_ & f & -> & NI & Ea & _ & ES).
    destruct (make_tuner_defined s1 f F1) as (t & -> & Et). { rewrite Ea. apply in_or_app; simpl; auto. }
    cbn [lift obind]. set (s2 := set_tun s1 (r_tun s1 ++ [f])). destruct share as [group|]; [|exact Q2].
    unfold find_tuner. destruct (find_pos (tunes (r_h s2) group) (r_tuners s2)) as [i|] eqn:EF; cbn [lift obind]; [|exact Q2].
    assert (V : exists old, nth_error (r_tuners s2) i = Some old) by (apply find_pos_some in EF as (x & ? & _); eauto).
    destruct V as (old & Eo). unfold vget. rewrite Eo. cbn [lift obind].
    match goal with |- context [set_tuners s2 ?l] => set (s3 := set_tuners s2 l) end.
    assert (X : forall b, In b (bases old ++ [t]) -> f_exp (r_h s3 (bt_fac b)) <> None).
    { intros b J. change (r_h s3) with (r_h s1). apply in_app_or in J as [J|[<-|[]]].
      - eapply tuners_exp; eauto. apply (ch_r _ _ (fl_coh _ _ F1)). eapply nth_error_In. exact Eo.
      - rewrite Et, ES. apply (Hd f); auto. }
    assert (W : exists w, tuner_weight (r_h s3) (TComp (bases old ++ [t])) = Ok w).
    { cbn [tuner_weight]. destruct (bases old ++ [t]) as [|b l] eqn:E. { destruct (bases old); discriminate E. }
      unfold exp_get_weight. destruct (f_exp (r_h s3 (bt_fac b))) eqn:E'; [eauto|]. exfalso. exact (X b (or_introl eq_refl) E'). }
    destruct W as (w & ->). cbn [lift obind]. unfold tuner_set_weight. cbn [bases].
    destruct (weight_fold s3 w (bases old ++ [t]) X) as (s4 & -> & E4 & _). cbn [oaw]. rewrite E4. exact Q2.
  Qed.
  Lemma copy_tunable_fin s f share : full True s -> awake (r_g s) -> expo s f -> (share <> None -> on_hidden s f) -> ofin s (copy_tunable f share s).
  Proof.
    intros F A X HH. unfold copy_tunable. pose proof (ri_built _ (ch_r _ _ (fl_coh _ _ F)) f) as Hb.
    assert (E : exists c, exp_copy (r_h s f) = Ok c).
    { unfold exp_copy, exp_get_weight. destruct X as [_ X]. destruct (f_exp (r_h s f)) as [w|]; [|congruence]. cbn [rbind].
      destruct (exp_ctor_ok (r_h s f) w) as (c & E & _). { apply built_solid; auto. } eauto. }
    destruct E as (c & E). rewrite E. cbn [lift obind alloc]. destruct (alloc_fin s c F) as [ST F']. { eapply b_expcopy; eauto. }
    apply exp_copy_group in E as [EG EX]. eapply ofin_from; [exact ST|]. apply add_tunable_fin; auto.
    - intros k [= <-]. split; simpl. lia. rewrite fupd_eq. auto.
    - intros k [= <-] NS v J. cbn [r_h alloc snd] in J. rewrite fupd_eq in J. unfold f_vars in J. rewrite EG in J. apply (cs_un _ _ _ ST). apply HH; auto.
  Qed.
  Lemma insert_tunable_fin s copy f share : full True s -> awake (r_g s) -> expo s f -> (share <> None -> on_hidden s f) -> ofin s (insert_tunable copy f share s).
  Proof.
    intros F A X HH. destruct copy. apply copy_tunable_fin; auto. apply add_tunable_fin; auto. intros k [= <-]. auto. intros k [= <-]. auto.
  Qed.
  Lemma absorb_tunable_fin s copy l : full True s -> awake (r_g s) -> (forall f, In f l -> expo s f) -> ofin s (absorb_tunable copy l s).
  Proof.
    intros F A Hl. unfold absorb_tunable. apply ofin_fold; auto. apply full_refl; auto. intros f t J ST Ft At. apply ofin_catch.
    eapply ofin_from. exact ST. apply insert_tunable_fin; auto. eapply expo_le. apply ST. auto. congruence.
  Qed.
  Lemma absorb_cluster_fin s copy c : full True s -> awake (r_g s) -> c <> [] -> (forall f, In f c -> expo s f) -> (forall f, In f c -> on_hidden s f) -> ofin s (absorb_cluster copy c s).
  Proof.
    intros F A NE Hc HH. destruct c as [|f c]; [congruence|]. simpl. apply ofin_bind. apply insert_tunable_fin; auto. apply Hc. left; auto. congruence.
    intros _ t _ ST Ft At. apply ofin_fold; auto. intros k t2 J ST2 F2 A2. eapply ofin_from. exact ST2. apply insert_tunable_fin; auto.
    eapply expo_le. apply ST2. apply Hc. right; auto.
    intros _. eapply (on_hidden_le True). exact ST2. apply Hc. right; auto. apply HH. right; auto.
  Qed.
  Lemma absorb_clusters_fin s copy cs : full True s -> awake (r_g s) -> (forall c, In c cs -> c <> []) ->
    (forall c f, In c cs -> In f c -> expo s f) -> (forall c f, In c cs -> In f c -> on_hidden s f) -> ofin s (absorb_clusters copy cs s).
  Proof.
    intros F A NE Hl HH. unfold absorb_clusters. apply ofin_fold; auto. apply full_refl; auto. intros c t J ST Ft At. apply ofin_catch.
    eapply ofin_from. exact ST. apply absorb_cluster_fin; auto. intros f Jf. eapply expo_le. apply ST. eauto.
    intros f Jf. eapply (on_hidden_le True). exact ST. apply (Hl c); auto. eauto.
  Qed.

  (** {1 Weights} *)
  Lemma set_weights_aw s ws : rinv s -> awake (r_g s) -> oaw (set_weights ws s).
  Proof.
    intros F A. unfold set_weights. destruct (_ =? _); [|exact A].
    assert (G : forall l t, r_g t = r_g s -> (forall p, In p l -> forall b, In b (bases (fst p)) -> f_exp (r_h t (bt_fac b)) <> None) ->
      exists t', ofold (fun p s => tuner_set_weight (fst p) (snd p) s) l t = Ret tt t' /\ r_g t' = r_g s).
    { induction l as [|p l IH]; intros t Eg Hl. exists t. auto. simpl. unfold tuner_set_weight at 1.
      destruct (weight_fold t (snd p) (bases (fst p))) as (t1 & -> & E1 & _ & M). { apply Hl. simpl; auto. }
      cbn [obind]. apply IH. congruence. intros q J b Jb. apply M. apply (Hl q); simpl; auto. }
    destruct (G (combine (r_tuners s) ws) s eq_refl) as (t & -> & Et).
    { intros [x w] J b Jb. eapply tuners_exp; eauto. eapply in_combine_l; eauto. }
    cbn [obind oaw r_g set_g]. rewrite Et. split. apply A. intros L. exfalso. apply L. reflexivity.
  Qed.
  Lemma get_weights_ok s : rinv s -> exists ws, get_weights s = Ok ws.
  Proof.
    intros F. unfold get_weights. pose proof (tuners_exp s) as TE.
    assert (NE : forall t, In t (r_tuners s) -> bases t <> []).
    { intros t J E. apply (ri_ne _ F (map bt_fac (bases t))). unfold tunable_clusters. apply in_map_iff. eauto. rewrite E. auto. }
    assert (G : forall l, incl l (r_tuners s) -> exists ws, rmap (tuner_weight (r_h s)) l = Ok ws).
    { induction l as [|t l IH]; intros J. exists []. auto. destruct IH as (ws & Ew). { intros x Jx. apply J. simpl; auto. }
      assert (Jt : In t (r_tuners s)) by (apply J; simpl; auto). simpl. rewrite Ew.
      assert (Q : exists w, tuner_weight (r_h s) t = Ok w).
      { specialize (NE t Jt). destruct t as [b|[|b r]]; simpl in *; [| congruence |];
          (unfold exp_get_weight; destruct (f_exp (r_h s (bt_fac b))) eqn:E; [eauto|]; exfalso; eapply (TE _ b F Jt); simpl; auto). }
      destruct Q as (w & ->). cbn [rbind]. eauto. }
    apply G. apply incl_refl.
  Qed.
  Lemma set_all_ones_aw s : rinv s -> awake (r_g s) -> oaw (set_all_ones s).
  Proof. intros F A. unfold set_all_ones. destruct (get_weights_ok s F) as (ws & ->). cbn [lift obind]. apply set_weights_aw; auto. Qed.
  (** {1 Gradient} *)
  Lemma rmap_total {A B} (f : A -> res B) l : (forall a, In a l -> exists b, f a = Ok b) -> exists bs, rmap f l = Ok bs /\ length bs = length l.
  Proof.
    induction l as [|a l IH]; intros Q. exists []. auto. destruct (Q a (or_introl eq_refl)) as (b & Eb). destruct IH as (bs & E & L). { intros; apply Q; simpl; auto. }
    exists (b :: bs). simpl. rewrite Eb. cbn [rbind]. rewrite E. cbn [rbind]. split; simpl; auto.
  Qed.
  Lemma find_nu (f : func N) c : wf_func f -> valid_comb (fsizes f) c -> nu (fun _ => True) (f_find f c).
  Proof. intros W V. rewrite f_find_ok; simpl; auto. Qed.
  Lemma alpha_nu s b samples : (forall f, built (r_h s f)) -> tuner_ok s b ->
    (forall c, In c samples -> valid_comb (map vsize (g_vars (r_g s))) c) -> nu (fun _ => True) (base_alpha (r_h s) samples b).
  Proof.
    intros Hb [_ T] V. unfold base_alpha. apply rfold_nu; auto. intros x c Ic _. eapply nu_bind; [|simpl; auto].
    unfold fd_find, extract_smaller. cbn [fd_func fd_idx]. specialize (V c Ic).
    assert (VA : forall a v, var_at (r_g s) a v -> exists x, vget c a = Ok x /\ x < vsize v).
    { intros a v Ha. destruct (valid_at _ _ _ _ V Ha) as (y & Q & L). exists y. unfold vget. rewrite Q. auto. }
    destruct (built_solid _ (Hb (bt_fac b))) as ((WF & _) & _).
    assert (FS : fsizes (r_h s (bt_fac b)) = map vsize (f_vars (r_h s (bt_fac b)))) by reflexivity.
    destruct (bt_kind b); [| |destruct T].
    - destruct T as (v & FV & Ha & ->). destruct (VA _ _ Ha) as (y & Q1 & Q2). simpl rmap. rewrite Q1. cbn [rbind].
      apply find_nu; auto. rewrite FS, FV. repeat constructor; auto.
    - destruct T as (v & w & FV & Ha & Hw & ->). destruct (VA _ _ Ha) as (y & Q1 & Q2). destruct (VA _ _ Hw) as (z & R1 & R2).
      simpl rmap. rewrite Q1, R1. cbn [rbind]. apply find_nu; auto. rewrite FS, FV. repeat constructor; auto.
  Qed.
  Lemma dot_loop_nu es : forall probs d, length es <= length probs -> nu (fun _ => True) (dot_loop (N:=N) es probs d).
  Proof. induction es as [|[c x] es IH]; intros [|p probs] d L; simpl in *; auto. lia. apply IH. lia. Qed.
  Lemma dot_nu (f : func N) probs : wf_func f -> length probs = length (all_combs (fsizes f)) -> nu (fun _ => True) (dot_product f probs).
  Proof. intros W L. unfold dot_product. rewrite f_each_ok by auto. cbn [rbind]. apply dot_loop_nu. rewrite map_length. lia. Qed.

  Section Betas.
    Variable H : nat -> func N.
    Hypothesis HG : solids H.
    Variable g : gst.
    Hypothesis IV : inv H g.
    Hypothesis WM : warm g.
    Variable e : env.
    Hypothesis E : env_ok e.
    Lemma unary_beta_nu f a v : g_ev g a = None -> f_vars (H f) = [v] -> var_at g a v -> nu (fun _ => True) (unary_beta H e g f a).
    Proof.
      intros EV FV Ha. unfold unary_beta. eapply nu_bind. apply nu_rok, (incoming_rok H HG g IV WM e a v E EV Ha).
      intros m U. eapply nu_bind. apply nu_rok, (probabilities_rok v m U). intros probs L. apply dot_nu. apply HG.
      rewrite L. change (fsizes (H f)) with (map vsize (f_vars (H f))). rewrite FV. simpl map. rewrite all_combs_1, map_length, seq_length. auto.
    Qed.
    Lemma outer_nu a b v : g_ev g a = None -> var_at g a v -> nu (fun l => length l = vsize v) (outer_marginal e g a b).
    Proof.
      intros EV Ha. unfold outer_marginal. assert (La : a < gsize g) by (eapply nth_error_lt; exact Ha).
      destruct (warm_merged H HG g IV WM a La EV) as (m & v' & Em & Hv' & U). rewrite (var_at_fun _ _ _ _ Hv' Ha) in U. rewrite Em.
      assert (G : exists l, map (fun b => match act g a b with Some c => c_msg c | None => None end)
          (filter (fun b0 => negb (b0 =? b)) (keys (gsize g) (nd_act (g_node g a)))) = map Some l /\ Forall (unary v) l).
      { assert (IK : forall k, In k (filter (fun b0 => negb (b0 =? b)) (keys (gsize g) (nd_act (g_node g a)))) -> exists c, act g a k = Some c).
        { intros k Jk. apply filter_In in Jk as [Jk _]. apply keys_In in Jk as (_ & c & Ec). exists c. exact Ec. }
        induction (filter (fun b0 => negb (b0 =? b)) (keys (gsize g) (nd_act (g_node g a)))) as [|k l IH]. exists []; auto.
        destruct IH as (l' & El & Fl). { intros; apply IK; simpl; auto. }
        destruct (IK k (or_introl eq_refl)) as (c & Ec). destruct (proj2 WM a k c v Ec Ha) as (mb & Emb & Ub).
        exists (mb :: l'). simpl. rewrite Ec, Emb, El. auto. }
      destruct G as (l & El & Fl). rewrite El. change (Some m :: map Some l) with (map Some (m :: l)).
      pose proof (permute_perm (e_ord e (gsize g)) (map Some (m :: l)) (proj1 E (gsize g))) as PM.
      apply Permutation_map_inv in PM as (l3 & -> & P3).
      eapply nu_bind. apply nu_rok, (merged_unaries_rok v l3).
      - eapply Permutation_Forall; [exact P3|]. auto.
      - intros ->. apply Permutation_sym, Permutation_nil in P3. discriminate P3.
      - intros mg Um. apply nu_rok, (probabilities_rok v mg Um).
    Qed.
    Lemma binary_beta_nu f a b v w : g_ev g a = None -> g_ev g b = None -> f_vars (H f) = [v; w] -> var_at g a v -> var_at g b w -> nu (fun _ => True) (binary_beta H e g f a b).
    Proof.
      intros Ea Eb FV Ha Hb. unfold binary_beta. destruct (HG f) as ((WF & _) & _).
      assert (FS : fsizes (H f) = [vsize v; vsize w]). { change (fsizes (H f)) with (map vsize (f_vars (H f))). rewrite FV. auto. }
      eapply nu_bind. apply (outer_nu a b v Ea Ha). intros ma La. eapply nu_bind. apply (outer_nu b a w Eb Hb). intros mb Lb. cbv beta in La, Lb.
      rewrite f_each_ok by auto. cbn [rbind].
      match goal with |- nu _ (rbind (rmap ?f ?l) _) => assert (Q : exists ps, rmap f l = Ok ps /\ length ps = length l) end.
      { apply rmap_total. intros p Jp. apply in_map_iff in Jp as (c & <- & Jc). apply all_combs_In in Jc. rewrite FS in Jc.
        destruct c as [|i [|j [|z c]]]; try (inversion Jc as [|? ? ? ? K1 K2]; subst; try inversion K2 as [|? ? ? ? K3 K4]; subst; try inversion K4; fail).
        assert (Lij : i < vsize v /\ j < vsize w). { inversion Jc as [|? ? ? ? K1 K2]; subst. inversion K2; subst. auto. } cbn [fst snd vget nth_error rbind].
        unfold vget. destruct (nth_error ma i) eqn:E1; [|apply nth_error_None in E1; lia].
        destruct (nth_error mb j) eqn:E2; [|apply nth_error_None in E2; lia]. cbn [rbind]. eauto. }
      destruct Q as (ps & -> & Lp). cbn [rbind]. destruct (ndz _) eqn:DZ; simpl; [eexists; eauto|]. apply dot_nu; auto. rewrite map_length, Lp, map_length. auto.
    Qed.
  End Betas.

  Lemma sum_nu (m : btuner -> res N) t : (forall b, In b (bases t) -> nu (fun _ => True) (m b)) -> nu (fun _ => True) (tuner_sum m t).
  Proof.
    destruct t as [b|l]; simpl; intros Q. apply Q; auto. apply rfold_nu; auto. intros x b Jb _. eapply nu_bind. apply Q; auto. simpl; auto.
  Qed.

  Lemma rf_gradient_aw s e it : coh True s -> tinv s -> (exists p, g_pool (r_g s) = Some p) -> env_ok e -> balanced (r_h s) (without_evidences s) -> in_range s it ->
    match rf_gradient e it s with Undef => False | NotNum => stops N | Ret _ t | Thr t => g_last (r_g t) <> None -> warm (r_g t) | _ => True end.
  Proof.
    intros C TI PN E B (samples & IS & V).
    assert (R1 : exists s1, (if existsb (fun a => is_some (g_ev (r_g s) a)) (seq 0 (gsize (r_g s))) then on_g (remove_all_evidences e) s else Ret tt s) = Ret tt s1 /\
      coh True s1 /\ (forall a, g_ev (r_g s1) a = None) /\ s1 = set_g s (r_g s1) /\ g_vars (r_g s1) = g_vars (r_g s) /\ g_all (r_g s1) = g_all (r_g s) /\ g_pool (r_g s1) = g_pool (r_g s)).
    { destruct (existsb _ _) eqn:EX.
      - destruct (remove_all_coh True s e C E) as (g & Eg & Cg & Ev & EV' & EA). exists (set_g s g). unfold on_g. rewrite Eg. splits; auto.
        pose proof (remove_all_pool (r_g s) e) as Q. rewrite Eg in Q. simpl in Q. simpl. rewrite Q. auto.
      - exists s. assert (NEV : forall a, g_ev (r_g s) a = None).
        { intros a. destruct (g_ev (r_g s) a) as [k|] eqn:Q; auto. exfalso. destruct (co_ev _ _ _ (proj1 (ch_inv _ _ C)) a k Q) as (v & Ha & _).
          assert (existsb (fun a => is_some (g_ev (r_g s) a)) (seq 0 (gsize (r_g s))) = true); [|congruence].
          apply existsb_exists. exists a. split. apply in_seq. pose proof (var_at_lt _ _ _ Ha). lia. rewrite Q. auto. }
        splits; auto. destruct s; auto. }
    destruct R1 as (s1 & R1 & C1 & EV1 & ES1 & EV' & EA & EN1). unfold rf_gradient. rewrite R1. cbn [obind].
    assert (RH : r_h s1 = r_h s) by (rewrite ES1; auto). assert (RT : r_tuners s1 = r_tuners s) by (rewrite ES1; auto).
    set (g0 := reset_belief (r_g s1)). destruct PN as (p & PN). rewrite PN in EN1.
    pose proof (ch_inv _ _ C1) as [X Y]. rewrite RH in X.
    assert (C0 : core (r_h s) g0 (g_all g0)) by (eapply core_same; [| | |exact X]; auto).
    assert (CS0 : clus g0) by (eapply clus_same; [| | | |exact Y]; auto).
    assert (CL : clean g0) by (apply no_evidence_clean; auto).
    assert (AB0 : abs g0 (without_evidences s)) by (constructor; simpl; auto).
    pose proof (balanced_evened (r_h s) g0 _ C0 AB0 CL B) as EVN.
    pose proof (coh_solid True s C) as HG.
    pose proof (wpropagate (r_h s) HG (g_all g0) g0 C0 CS0 CL EVN e SUM g0 p E (keeps_refl (r_h s) g0) eq_refl EN1) as WP.
    unfold on_g. cbn [r_h r_g set_g]. fold g0. rewrite RH.
    destruct (propagate (r_h s) e SUM g0) as [[] g|g| | |]; cbn [ook] in WP; try contradiction; auto.
    destruct WP as (K & WM & Pg & _). cbn [obind r_g set_g r_h r_tuners]. rewrite Pg, RT, RH, IS. cbn [rbind].
    assert (IG : inv (r_h s) g). { eapply keeps_inv; [exact K|]. split; auto. }
    assert (EG : forall a, g_ev g a = None) by (intros a; rewrite (kp_ev _ _ _ K); simpl; auto).
    assert (KV : g_vars g = g_vars (r_g s)) by (rewrite (kp_vars _ _ _ K); auto).
    assert (VAT : forall a v, var_at (r_g s) a v -> var_at g a v) by (intros a v; unfold var_at; rewrite KV; auto).
    match goal with |- match lift ?r _ with _ => _ end => assert (Q : nu (fun _ => True) r) end.
    { eapply nu_imp; [|intros; exact I]. apply (rmap_nu (fun _ => True)). intros t Jt.
      eapply nu_bind. { apply sum_nu. intros b Jb. apply alpha_nu; auto. apply C. apply (TI t b Jt Jb). }
      intros xa _. eapply nu_bind; [|simpl; auto]. apply sum_nu. intros b Jb. destruct (TI t b Jt Jb) as [_ T]. unfold base_beta.
      destruct (bt_kind b); [| |destruct T].
      - destruct T as (v & FV & Ha & _). eapply unary_beta_nu; eauto.
      - destruct T as (v & w & FV & Ha & Hw & _). eapply binary_beta_nu; eauto. }
    destruct (rmap _ (r_tuners s)); simpl in *; auto.
  Qed.

  Lemma gradient_aw s e it n : full True s -> awake (r_g s) -> env_ok e -> 1 <= n -> balanced (r_h s) (without_evidences s) -> in_range s it ->
    oaw (weights_gradient e it n s).
  Proof.
    intros F A E L B R. unfold weights_gradient, scoped, on_g, set_pool_size. pose proof (fl_en _ _ F) as EN. unfold en in EN. rewrite EN.
    destruct (Nat.eqb_spec n 0); [lia|].
    assert (K : forall t, (exists p, g_pool (r_g t) = Some p) -> coh True t -> tinv t -> r_h t = r_h s -> g_vars (r_g t) = g_vars (r_g s) -> g_all (r_g t) = g_all (r_g s) ->
      oaw (match rf_gradient e it t with Ret a s => Ret a (set_g s (set_pool (r_g s) (Some 1))) | Thr s => Thr (set_g s (set_pool (r_g s) (Some 1))) | Undef => Undef | NotNum => NotNum | NoStop => NoStop end)).
    { intros t PN C TI EH EV EA.
      pose proof (rf_gradient_aw t e it C TI PN E) as Q. unfold without_evidences, in_range in *. rewrite EH, EV, EA in Q. specialize (Q B R).
      destruct (rf_gradient e it t) as [a u|u| | |]; simpl in *; auto; (split; [reflexivity|]; intros Z; apply (warm_ext (r_g u)); auto). }
    destruct (n =? 1); cbn [obind]; apply K; auto; try (simpl; eauto; fail).
    - replace (set_g s (r_g s)) with s by (destruct s; auto). apply F.
    - replace (set_g s (r_g s)) with s by (destruct s; auto). apply F.
    - apply coh_keeps. apply F. apply keeps_pool.
    - exact (fl_tin _ _ F).
  Qed.

  (** {1 Histories} *)
  Lemma rsafe_steady s op : rsafe s op -> steady True s op.
  Proof.
    intros [C G]. split; auto. destruct op; simpl in *; auto. apply G. destruct G as (_ & _ & G & _). intros n Q. apply (G n Q).
  Qed.
  Lemma oaw_map {B} (f : B -> answer) (o : out rst B) : oaw o -> oaw (rmapo f o).
  Proof. destruct o; simpl; auto. Qed.
  Theorem rcall_fin e op s : full True s -> awake (r_g s) -> rok op s -> rsafe s op -> env_ok e -> oaw (rcall e op s).
  Proof.
    intros F A Hop G E. pose proof (fl_coh _ _ F) as C. destruct G as [G G']. destruct op; cbn [rcall rok careful] in *; try apply oaw_map.
    - exact A.
    - apply add_const_fin; auto. intros f ->. auto.
    - apply copy_const_fin; auto.
    - apply absorb_const_fin; auto.
    - apply add_tunable_fin; auto. intros f ->. auto. intros f -> NS. destruct share; [auto|congruence].
    - apply copy_tunable_fin; auto. intros NS. destruct share; [auto|congruence].
    - apply absorb_tunable_fin; auto.
    - apply absorb_clusters_fin; auto.
    - apply set_weights_aw; auto. apply C.
    - apply set_all_ones_aw; auto. apply C.
    - destruct G' as (L & B & R). apply gradient_aw; auto.
    - pose proof (coh_solid True s C) as HG.
      pose proof (call_defined (r_h s) HG _ e op (r_g s) (ch_inv _ _ C) (coh_abs True s C) (ch_clean _ _ C I) A E G') as [Q0 Q1].
      pose proof (fun g => call_awake (r_h s) HG _ e op (r_g s) g (ch_inv _ _ C) (coh_abs True s C) (ch_clean _ _ C I) A E G') as Q2.
      unfold on_g. destruct (call (r_h s) e op (r_g s)) as [a g|g| | |]; simpl in *; auto.
      + apply Q2. right. eauto.
      + apply Q2. left. auto.
  Qed.
  Theorem rreach_fin h top s : (forall f, built (h f)) -> rreach h top rsafe s -> full True s /\ awake (r_g s).
  Proof.
    intros Hb R. induction R as [|s e op a s' R [F A] Hop G E Q|s e op s' R [F A] Hop G E Q].
    - split. apply full_empty; auto. split. reflexivity. intros L. exfalso. apply L. reflexivity.
    - pose proof (rcall_full True e op s F Hop (rsafe_steady s op G) E) as X. pose proof (rcall_fin e op s F A Hop G E) as Y. rewrite Q in *. auto.
    - pose proof (rcall_full True e op s F Hop (rsafe_steady s op G) E) as X. pose proof (rcall_fin e op s F A Hop G E) as Y. rewrite Q in *. auto.
  Qed.
  Theorem rreach_defined h top s e op : (forall f, built (h f)) -> rreach h top rsafe s -> rok op s -> rsafe s op -> env_ok e ->
    rcall e op s <> Undef /\ (rcall e op s = NotNum -> stops N).
  Proof.
    intros Hb R Hop G E. destruct (rreach_fin h top s Hb R) as [F A]. pose proof (rcall_fin e op s F A Hop G E) as Q. split; intros Z; rewrite Z in Q; exact Q.
  Qed.
End FieldSafe.
