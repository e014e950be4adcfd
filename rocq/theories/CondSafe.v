(** The calls on a conditional random field never go through undefined behaviour,
    under the conditions of CondSafeSpec.v *)
From Coq Require Import String List Arith Bool Lia Permutation Relations.
From Verif Require Import Res Num Categoric Combs Func FuncProofs GroupProofs FactorProofs FactorApi Special SpecialProofs
  Graph GraphLemmas Clusters Belief Query Gibbs GraphInv EvidInv BeliefInv BigOp Tree Cycle BPStep BPRun GraphSpec Hist P_Graph BeliefSpec Sums Exact BeliefHist Queries
  Parts JointSpec Joint SafeSpec Safe Train TrainHist Coherent TrainSpec Gradient TrainInv GradientRun Plan P_Field FieldSafeSpec FieldSafe SampleSafe CRF CRFHist P_CRF CRFInv CondSafeSpec.
Import ListNotations.
Open Scope nat_scope.

Section CondSafe.
  Context {N : num}.
  Notation gst := (gst (N:=N)).
  Notation rst := (rst (N:=N)).
  Notation cop := (cop (N:=N)).
  Implicit Types s : rst.
  Notation nu := (@nu (Safe.stops N) _).
  Notation ook := (@ook (Safe.stops N) _ _).

  (** {1 Observed variables} *)
  Lemma combine_seq_In {A} (l : list A) : forall i a x, In (a, x) (combine (seq i (length l)) l) <-> exists j, a = i + j /\ nth_error l j = Some x.
  Proof.
    induction l as [|y l IH]; intros i a x; simpl. { split. tauto. intros ([|j] & _ & Q); discriminate. }
    rewrite IH. split.
    - intros [[= <- <-]|(j & -> & Q)]. exists 0. split; auto. exists (S j). split; auto. lia.
    - intros ([|j] & -> & Q). left. injection Q as <-. f_equal. lia. right. exists j. split; auto. lia.
  Qed.
  Lemma observed_In s v : In v (observed s) <-> exists a k, var_at (r_g s) a v /\ g_ev (r_g s) a = Some k.
  Proof.
    unfold observed. rewrite in_flat_map. split.
    - intros ([a w] & J & Q). apply combine_seq_In in J as (j & -> & J). simpl in Q. destruct (g_ev (r_g s) j) as [k|] eqn:E; [|destruct Q]. destruct Q as [<-|[]]. exists j, k. auto.
    - intros (a & k & V & E). exists (a, v). split. apply combine_seq_In. exists a. auto. simpl. rewrite E. simpl; auto.
  Qed.
  Lemma observed_NoDup s : NoDup (map vkey (g_vars (r_g s))) -> NoDup (observed s).
  Proof.
    intros ND. apply NoDup_map_inv in ND. unfold observed. generalize 0. revert ND. generalize (g_vars (r_g s)). induction l as [|v l IH]; intros ND i; simpl. constructor.
    inversion ND; subst. destruct (g_ev (r_g s) i); simpl; auto. constructor; auto. intros J. apply in_flat_map in J as ([a w] & J & Q). apply combine_seq_In in J as (j & _ & J).
    simpl in Q. destruct (g_ev (r_g s) a); [|destruct Q]. destruct Q as [<-|[]]. apply nth_error_In in J. auto.
  Qed.
  Lemma attached_exposed s : shape (r_h s) (r_g s) -> attached s -> exposed s.
  Proof.
    intros SH AT c f v Jc Jf FV. destruct (AT c f v Jc Jf FV) as (f' & w & J & E & O). exists f', w. splits; auto.
    apply observed_In in O as (a & k & V & Ev). unfold unobserved, sp_observed. change (vname w, vsize w) with (vkey w).
    pose proof (spec_of_abs (r_g s) (sh_vars _ _ SH)) as AB. rewrite <- (ab_ev _ _ AB a w V), Ev.
    assert (KN : sp_known (spec_of (r_g s)) w = true). { unfold sp_known. apply existsb_exists. exists w. split. eapply nth_error_In; exact V. apply same_key_spec. auto. }
    rewrite KN. discriminate.
  Qed.
  Lemma prodn_perm l l' : Permutation l l' -> prodn l = prodn l'.
  Proof. induction 1; simpl; auto; lia. Qed.

  (** {1 Outcomes} *)
  Definition pw (q : nat) s : Prop := g_pool (r_g s) = Some q /\ (g_last (r_g s) <> None -> warm (r_g s)).
  Definition opw {B} (q : nat) (o : out rst B) : Prop := match o with Undef => False | NotNum => Safe.stops N | Ret _ t | Thr t => pw q t | _ => True end.
  Lemma oaw_opw {B} (o : out rst B) : oaw o <-> opw 1 o.
  Proof. destruct o; simpl; unfold awake, pw; tauto. Qed.
  Lemma opw_bind {B D} q (o : out rst B) (f : B -> rst -> out rst D) : opw q o -> (forall b t, o = Ret b t -> pw q t -> opw q (f b t)) -> opw q (obind o f).
  Proof. intros P K. destruct o; simpl in *; auto. Qed.
  Lemma opw_lift {B D} q (r : res B) (f : B -> rst -> out rst D) P s : pw q s -> nu P r -> (forall b, P b -> opw q (f b s)) -> opw q (do (b, s) <- lift r s ;; f b s).
  Proof. intros W R K. destruct r; simpl in *; auto. Qed.
  Lemma opw_fold {B} q (f : B -> rst -> out rst unit) (P : rst -> Prop) l : (forall b s, In b l -> P s -> pw q s -> opw q (f b s) /\ forall s', f b s = Ret tt s' -> P s') ->
    forall s, P s -> pw q s -> opw q (ofold f l s).
  Proof.
    induction l as [|b l IH]; simpl; intros K s Hs W. exact W. destruct (K b s (or_introl eq_refl) Hs W) as [A1 A2]. apply opw_bind; auto.
    intros [] t Q Wt. apply IH; auto.
  Qed.
  Lemma opw_map {B} q (f : B -> canswer) (o : out rst B) : opw q o -> opw q (cmapo f o).
  Proof. destruct o; simpl; auto. Qed.
  Lemma pw_forget q s g : g_pool g = Some q -> g_last g = None -> pw q (set_g s g).
  Proof. intros P L. split; auto. simpl. congruence. Qed.

  (** {1 Evidences} *)
  Definition same_obs s t : Prop := cinv t /\ frozen s t.
  Lemma one_evidence_pw q e p s : cinv s -> env_ok e -> pw q s -> g_ev (r_g s) (fst p) <> None -> opw q (one_evidence e p s).
  Proof.
    intros I E W EV. destruct p as [a k]. cbn [fst snd] in *. destruct (g_ev (r_g s) a) as [k0|] eqn:E0; [|congruence].
    destruct (sh_ev _ _ (ci_shape _ I) a k0 E0) as (v & V & _). unfold one_evidence. cbn [fst snd].
    rewrite (node_var_ok _ _ _ V). cbn [lift obind]. unfold on_g.
    pose proof (revalue (r_h s) (r_g s) e a v k0 k (ci_shape _ I) (cinv_good _ I) E V E0) as R.
    destruct (vsize v <=? k).
    - rewrite R. cbn [opw]. destruct s; exact W.
    - destruct R as (g & -> & R & LN & _). cbn [opw]. apply pw_forget; auto. rewrite (rv_pool _ _ _ _ R). apply W.
  Qed.
  Lemma set_evidences_pw q e values s : cinv s -> env_ok e -> pw q s -> opw q (set_evidences e values s).
  Proof.
    intros I E W. unfold set_evidences. destruct (_ =? _); [|exact W].
    apply (opw_fold q (one_evidence e) (fun t => cinv t /\ frozen s t)); auto; [|split; auto; apply frozen_refl].
    intros [a k] t J [It Ft] Wt. assert (O : g_ev (r_g t) a <> None).
    { rewrite (fz_obs _ _ Ft). apply in_combine_l in J. apply (order_obs e s I E). auto. }
    split. apply one_evidence_pw; auto. intros t' Q. pose proof (one_evidence_cst e (a, k) t It E O) as X. rewrite Q in X. destruct X as [X1 X2]. split; auto. eapply frozen_trans; eauto.
  Qed.
  Lemma seq_combine_lt {A} (l : list A) j a : In (j, a) (combine (seq 0 (length l)) l) -> j < length l.
  Proof. intros J. apply in_combine_l, in_seq in J. lia. Qed.
  Lemma sample_evidences_pw q e pos comb s : cinv s -> env_ok e -> pw q s -> length (evidence_order e (r_g s)) <= length pos -> (forall p, In p pos -> p < length comb) ->
    opw q (sample_evidences e pos comb s).
  Proof.
    intros I E W LP LC. unfold sample_evidences. set (ks := evidence_order e (r_g s)) in *.
    apply (opw_fold q (sample_step e pos comb) (fun t => cinv t /\ frozen s t)); auto; [|split; auto; apply frozen_refl].
    intros [j a] t J [It Ft] Wt. assert (O : g_ev (r_g t) a <> None).
    { rewrite (fz_obs _ _ Ft). apply in_combine_r in J. apply (order_obs e s I E). auto. }
    apply seq_combine_lt in J.
    assert (V1 : exists i, vget pos j = Ok i /\ In i pos). { unfold vget. destruct (nth_error pos j) as [i|] eqn:Q. exists i. split; auto. eapply nth_error_In; eauto. apply nth_error_None in Q. lia. }
    destruct V1 as (i & Ei & Ji). specialize (LC i Ji).
    assert (V2 : exists x, vget comb i = Ok x). { unfold vget. destruct (nth_error comb i) as [x|] eqn:Q. eauto. apply nth_error_None in Q. lia. }
    destruct V2 as (x & Ex).
    assert (OE : sample_step e pos comb (j, a) t = one_evidence e (a, x) t).
    { unfold sample_step, one_evidence. cbn [fst snd]. destruct (node_var (r_g t) a); cbn [lift obind]; auto. rewrite Ei. cbn [lift obind]. rewrite Ex. auto. }
    rewrite OE. split. apply one_evidence_pw; auto.
    intros t' Q. pose proof (one_evidence_cst e (a, x) t It E O) as X. rewrite Q in X. destruct X as [X1 X2]. split; auto. eapply frozen_trans; eauto.
  Qed.

  (** {1 Gradient} *)
  Lemma hidobs_beta_nu H (HG : solids H) (g : gst) (IV : inv H g) (WM : warm g) e (E : env_ok e) f a b v w (first : bool) :
    g_ev g a = None -> g_ev g b <> None -> f_vars (H f) = (if first then [v; w] else [w; v]) -> var_at g a v -> var_at g b w ->
    nu (fun _ => True) (hidobs_beta H e g f a b first).
  Proof.
    intros Ea Eb FV Ha Hb. unfold hidobs_beta. eapply nu_bind. apply nu_rok, (incoming_rok H HG g IV WM e a v E Ea Ha).
    intros m U. eapply nu_bind. apply nu_rok, (probabilities_rok v m U). intros probs L. destruct (g_ev g b) as [o|] eqn:Eo; [|congruence].
    destruct (co_ev _ _ _ (proj1 IV) b o Eo) as (w' & Hw & Lo). rewrite (var_at_fun _ _ _ _ Hw Hb) in Lo. clear w' Hw.
    destruct (HG f) as ((WF & _) & _). assert (FS : fsizes (H f) = map vsize (f_vars (H f))) by reflexivity.
    apply rfold_nu; auto. intros x [i y] J _. eapply nu_bind; [|simpl; auto]. apply find_nu; auto.
    apply in_combine_l, in_seq in J. assert (Li : i < vsize v) by (cbv beta in L; lia). rewrite FS, FV. cbn [fst].
    destruct first; simpl; (constructor; [assumption|]; constructor; [assumption|]; constructor).
  Qed.
  Lemma cbeta_nu s e b : coh True s -> warm (r_g s) -> env_ok e -> ctuner_ok s b -> nu (fun _ => True) (base_beta (r_h s) e (r_g s) b).
  Proof.
    intros C WM E [_ T]. pose proof (coh_solid True s C) as HG. pose proof (ch_inv _ _ C) as IV. unfold base_beta. destruct (bt_kind b).
    - destruct T as (v & FV & Ha & _ & Ev). eapply unary_beta_nu; eauto.
    - destruct T as (v & w & FV & Ha & Hw & _ & E1 & E2). eapply binary_beta_nu; eauto.
    - destruct T as (v & w & FV & Ha & Hw & _ & E1 & E2). eapply hidobs_beta_nu; eauto.
  Qed.
  Lemma calpha_nu s b samples : (forall f, built (r_h s f)) -> ctuner_ok s b ->
    (forall c, In c samples -> valid_comb (map vsize (g_vars (r_g s))) c) -> nu (fun _ => True) (base_alpha (r_h s) samples b).
  Proof.
    intros Hb [_ T] V. unfold base_alpha. apply rfold_nu; auto. intros x c Ic _. eapply nu_bind; [|simpl; auto].
    unfold fd_find, extract_smaller. cbn [fd_func fd_idx]. specialize (V c Ic).
    assert (VA : forall a v, var_at (r_g s) a v -> exists x, vget c a = Ok x /\ x < vsize v).
    { intros a v Ha. destruct (valid_at _ _ _ _ V Ha) as (y & Q & L). exists y. unfold vget. rewrite Q. auto. }
    destruct (built_solid _ (Hb (bt_fac b))) as ((WF & _) & _).
    assert (FS : fsizes (r_h s (bt_fac b)) = map vsize (f_vars (r_h s (bt_fac b)))) by reflexivity.
    destruct (bt_kind b) as [a|a a'|a a' first].
    - destruct T as (v & FV & Ha & -> & _). destruct (VA _ _ Ha) as (y & Q1 & Q2). simpl rmap. rewrite Q1. cbn [rbind].
      apply find_nu; auto. rewrite FS, FV. repeat constructor; auto.
    - destruct T as (v & w & FV & Ha & Hw & -> & _). destruct (VA _ _ Ha) as (y & Q1 & Q2). destruct (VA _ _ Hw) as (z & R1 & R2).
      simpl rmap. rewrite Q1, R1. cbn [rbind]. apply find_nu; auto. rewrite FS, FV. repeat constructor; auto.
    - destruct T as (v & w & FV & Ha & Hw & -> & _). destruct (VA _ _ Ha) as (y & Q1 & Q2). destruct (VA _ _ Hw) as (z & R1 & R2).
      destruct first; simpl rmap; rewrite Q1, R1; cbn [rbind]; (apply find_nu; auto; rewrite FS, FV; repeat constructor; auto).
  Qed.

  Lemma hidden_spec (g : gst) a v : NoDup (map vkey (g_vars g)) -> var_at g a v -> (hidden (spec_of g) v <-> g_ev g a = None).
  Proof.
    intros ND V. unfold hidden, sp_evidence. change (vname v, vsize v) with (vkey v). rewrite <- (ab_ev _ _ (spec_of_abs g ND) a v V).
    split. tauto. intros Q. split; auto. eapply nth_error_In; exact V.
  Qed.
  Lemma balanced_frozen s t : frozen s t -> cinv s -> cinv t -> balanced (r_h s) (spec_of (r_g s)) -> balanced (r_h t) (spec_of (r_g t)).
  Proof.
    intros F I It B v w (Hv & Hw & f & Jf & EF). pose proof (sh_vars _ _ (ci_shape _ I)) as ND. pose proof (sh_vars _ _ (ci_shape _ It)) as NDt.
    assert (T : forall x, hidden (spec_of (r_g t)) x -> hidden (spec_of (r_g s)) x).
    { intros x Hx. pose proof (proj1 Hx) as J. apply In_nth_error in J as (a & V). apply (hidden_spec _ a) in Hx; auto. rewrite (fz_obs _ _ F) in Hx.
      apply (hidden_spec _ a); auto. cbn [sp_vars spec_of] in V. unfold var_at. rewrite <- (fz_vars _ _ F). auto. }
    apply B. split; [|split]; auto. exists f. split. cbn [sp_facs spec_of] in *. rewrite <- (fz_all _ _ F). auto.
    unfold fv, f_vars in *. rewrite (fz_group _ _ F) in EF. auto.
  Qed.

  Definition count s : nat := length (keys (gsize (r_g s)) (g_ev (r_g s))).
  Lemma count_order e s : env_ok e -> length (evidence_order e (r_g s)) = count s.
  Proof. intros E. unfold evidence_order, count. apply Permutation_length. apply E. Qed.
  Lemma count_frozen s t : frozen s t -> count t = count s.
  Proof.
    intros F. unfold count, keys, gsize. rewrite (fz_vars _ _ F). f_equal. apply filter_ext. intros a. pose proof (fz_obs _ _ F a) as Q.
    destruct (g_ev (r_g t) a), (g_ev (r_g s) a); simpl; auto. destruct Q as [_ Q]. specialize (Q eq_refl). discriminate. destruct Q as [Q _]. specialize (Q eq_refl). discriminate.
  Qed.

  Lemma betas_pw q es pos coeff samples : (forall k, env_ok (es k)) -> forall b k betas s, fresh b s -> ctinv s -> some_observed s -> pw q s ->
    balanced (r_h s) (spec_of (r_g s)) -> count s <= length pos -> (forall c p, In c samples -> In p pos -> p < length c) ->
    opw q (crf_betas es pos coeff k samples betas s).
  Proof.
    intros E. induction samples as [|comb rest IH]; cbn [crf_betas]; intros b k betas s F TI SO W B LP LC; auto.
    pose proof (weak_cinv [] s (fresh_weak b s F)) as I.
    assert (NE : evidence_order (es k) (r_g s) <> []).
    { destruct SO as (a & Ha). apply (order_obs (es k) s I (E k)) in Ha. intros Z. rewrite Z in Ha. destruct Ha. }
    pose proof (sample_evidences_pw q (es k) pos comb s I (E k) W) as P1. rewrite (count_order (es k) s (E k)) in P1. specialize (P1 LP (fun p => LC comb p (or_introl eq_refl))).
    pose proof (sample_evidences_fresh b (es k) pos comb s F (E k)) as Q1. pose proof (sample_evidences_weak (es k) pos comb s (fresh_weak b s F) (E k)) as Q1'.
    pose proof (sample_evidences_cst (es k) pos comb s I (E k)) as Q1''.
    destruct (sample_evidences (es k) pos comb s) as [[] s1|s1| | |]; cbn [obind opw ocst] in *; auto.
    destruct Q1' as [_ LN]. specialize (LN NE). destruct Q1'' as [I1 FZ1]. destruct P1 as [PN1 _].
    pose proof (ch_inv _ _ Q1) as [C1 CS1]. pose proof (balanced_frozen s s1 FZ1 I I1 B) as B1.
    pose proof (balanced_evened (r_h s1) (r_g s1) _ C1 (coh_abs True s1 Q1) (ch_clean _ _ Q1 Logic.I) B1) as EVN.
    assert (WN : would_need (r_g s1) SUM = true) by (unfold would_need; rewrite LN; auto).
    pose proof (wpropagate (r_h s1) (coh_solid True s1 Q1) (g_all (r_g s1)) (r_g s1) C1 CS1 (ch_clean _ _ Q1 Logic.I) EVN (es k) SUM (r_g s1) q (E k) (keeps_refl (r_h s1) (r_g s1)) WN PN1) as WP.
    pose proof (propagate_coh (es k) s1 Q1 (E k)) as Q2. pose proof (on_g_skel s1 (propagate (r_h s1) (es k) SUM) I1) as Q2'. specialize (Q2' (propagate_skel (r_h s1) (es k) SUM _ _ (skel_refl _))).
    unfold on_g in *. destruct (propagate (r_h s1) (es k) SUM (r_g s1)) as [[] g|g| | |]; cbn [ook ocst obind opw] in *; try contradiction; auto.
    destruct WP as (_ & WM & PG & _). destruct Q2' as [I2 FZ2]. set (s2 := set_g s1 g) in *.
    change (g_pool (r_g s2)) with (g_pool g). rewrite PG. assert (FZ : frozen s s2) by (eapply frozen_trans; eauto).
    assert (T2 : ctinv s2) by (eapply ctinv_frozen; eauto). assert (W2 : pw q s2) by (split; auto).
    eapply opw_lift with (P := fun _ => True); auto.
    - eapply nu_imp; [|intros; exact Logic.I]. apply (rmap_nu (fun _ => True)). intros [t x] J. apply in_combine_l in J. cbn [fst snd].
      eapply nu_bind; [|simpl; auto]. apply sum_nu. intros bt Jb. apply (cbeta_nu s2); auto. apply (T2 t bt); auto.
    - intros bs _. apply (IH false); auto.
      + destruct SO as (a & Ha). exists a. rewrite (fz_obs _ _ FZ). auto.
      + apply (balanced_frozen s s2); auto.
      + rewrite (count_frozen s s2); auto.
      + intros c p Jc. apply LC. simpl; auto.
  Qed.
  Lemma crf_gradient_pw q es pos it b s : (forall k, env_ok (es k)) -> fresh b s -> ctinv s -> some_observed s -> pw q s ->
    balanced (r_h s) (spec_of (r_g s)) -> count s <= length pos -> in_range s it -> (forall p, In p pos -> p < length (g_vars (r_g s))) ->
    opw q (crf_gradient es pos it s).
  Proof.
    intros E F TI SO W B LP (samples & IS & V) LC. unfold crf_gradient. pose proof W as [-> _]. rewrite IS. cbn [lift obind].
    pose proof (weak_cinv [] s (fresh_weak b s F)) as I.
    eapply opw_lift with (P := fun _ => True); auto.
    { eapply nu_imp; [|intros; exact Logic.I]. apply (rmap_nu (fun _ => True)). intros t J. apply sum_nu. intros bt Jb. apply calpha_nu; auto. apply I. apply (TI t bt); auto. }
    intros al _. apply opw_bind. apply (betas_pw q es pos _ samples E b); auto.
    { intros c p Jc Jp. rewrite (valid_length _ _ (V c Jc)), map_length. auto. }
    intros bs t _ Wt. exact Wt.
  Qed.
  Lemma scoped_pw {B} n (body : rst -> out rst B) s : 1 <= n -> pw 1 s -> (forall q t, r_g t = set_pool (r_g s) (Some q) -> t = set_g s (r_g t) -> opw q (body t)) -> opw 1 (scoped n body s).
  Proof.
    intros L [PN W] K. unfold scoped, on_g, set_pool_size. rewrite PN.
    assert (G : forall q, opw 1 (match body (set_g s (set_pool (r_g s) (Some q))) with
      | Ret a s => Ret a (set_g s (set_pool (r_g s) (Some 1))) | Thr s => Thr (set_g s (set_pool (r_g s) (Some 1))) | Undef => Undef | NotNum => NotNum | NoStop => NoStop end)).
    { intros q. specialize (K q (set_g s (set_pool (r_g s) (Some q))) eq_refl eq_refl).
      destruct (body _) as [a t|t| | |]; simpl in *; auto; (split; [reflexivity|]; intros Z; apply (warm_ext (r_g t)); auto; apply K; auto). }
    destruct (Nat.eqb_spec n 1).
    - cbn [obind]. specialize (G 1). replace (set_g s (r_g s)) with (set_g s (set_pool (r_g s) (Some 1))); auto. f_equal. destruct (r_g s); simpl in *; subst; auto.
    - destruct (Nat.eqb_spec n 0); [lia|]. cbn [obind]. apply (G n).
  Qed.

  (** {1 Samples and train sets} *)
  Lemma samples_pw draw e ceil10 ctx n s : coh True s -> pw 1 s -> env_ok e -> 1 <= n -> opw 1 (on_g (make_samples (r_h s) draw e ceil10 ctx n) s).
  Proof.
    intros C [PN W] E L. pose proof (samples_safe (r_h s) (coh_solid True s C) draw e ceil10 ctx n (r_g s) 1 (ch_inv _ _ C) E L PN) as Q.
    unfold on_g. destruct (make_samples _ _ _ _ _ _ _) as [l g|g| | |]; cbn [ook] in Q; simpl; try contradiction; auto.
    destruct Q as (_ & LS & PO & WW & _). split; auto. simpl. rewrite LS. auto.
  Qed.
  Lemma emplace_pw draw ceil10 es ctx n k ev b s : (forall k, env_ok (es k)) -> fresh b s -> pw 1 s -> 1 <= n -> opw 1 (emplace_samples draw ceil10 es ctx n k ev s).
  Proof.
    intros E F W L. unfold emplace_samples. pose proof (set_evidences_fresh b (es k) ev s F (E k)) as Q.
    apply opw_bind. apply set_evidences_pw; auto. apply (weak_cinv []). eapply fresh_weak; eauto.
    intros [] t Qt Wt. rewrite Qt in Q. apply samples_pw; auto.
  Qed.
  Section Loops.
    Variable body : nat -> list nat -> rst -> out rst (list (list nat)).
    Hypothesis BF : forall b k c s, fresh b s -> match body k c s with Ret _ s' => coh True s' | Thr s' => fresh b s' | _ => True end.
    Hypothesis BP : forall b k c s, fresh b s -> pw 1 s -> opw 1 (body k c s).
    Lemma all_loop_pw cs : forall b n acc s, fresh b s -> pw 1 s -> opw 1 (all_loop body n cs acc s).
    Proof.
      induction cs as [|c cs IH]; cbn [all_loop]; intros b n acc s F W. exact W. apply opw_bind. eapply BP; eauto.
      intros x t Q Wt. pose proof (BF b n c s F) as X. rewrite Q in X. apply (IH false); auto.
    Qed.
    Lemma some_loop_pw sizes delta f : sizes <> [] -> forall fuel b n comb acc s, valid_comb sizes comb -> fresh b s -> pw 1 s ->
      opw 1 (some_loop body fuel n delta (prodn sizes) (idx sizes comb) (Some (mkRData sizes comb f)) acc s).
    Proof.
      intros NE. induction fuel as [|fuel IH]; intros b n comb acc s V F W; cbn [some_loop]; destruct (_ <? _); try exact W; try exact Logic.I.
      cbn [range_get lift obind r_comb]. apply opw_bind. eapply BP; eauto. intros x t Q Wt. pose proof (BF b n comb s F) as X. rewrite Q in X.
      destruct (Nat.leb_spec (prodn sizes) (idx sizes comb + delta)) as [G|G]. exact Wt.
      destruct (advance_ok sizes comb f delta NE V G) as (c' & -> & V' & X'). cbn [lift obind]. rewrite <- X'. apply (IH false); auto.
    Qed.
  End Loops.
  Lemma combinations_order c e : creach c -> env_ok e -> prodn (map vsize (observed_order e (graph_of c))) = combinations (N := N) (c_r c).
  Proof.
    intros R E. unfold combinations. apply prodn_perm, Permutation_map, NoDup_Permutation.
    - apply (C40_observed c e (hd (mkVar 0 EmptyString 0) []) R E).
    - apply observed_NoDup. apply (ci_shape _ (creach_inv c R)).
    - intros v. rewrite (proj1 (C40_observed c e v R E)), observed_In. unfold evidence, graph_of. split; intros (x & y & Q); eauto; exists y, x; apply Q.
  Qed.
  Lemma train_pw draw floorf ceil10 e es ctx p n b c : creach c -> env_ok e -> (forall k, env_ok (es k)) -> fresh b (c_r c) -> pw 1 (c_r c) -> 1 <= n ->
    neqb n1 p = true \/ floorf (nofnat (combinations (c_r c)) * p)%num <> 0 -> opw 1 (make_crf_train_set draw floorf ceil10 e es ctx p n (c_r c)).
  Proof.
    intros R E ES F W L P. pose proof (observed_some c e R E) as NE. destruct (observed_group c e R E NE) as [G POS].
    unfold make_crf_train_set. destruct (_ || _); [exact W|]. fold (graph_of c). rewrite G. cbn [lift obind g_soup].
    set (vs := observed_order e (graph_of c)) in *. assert (NE' : map vsize vs <> []) by (destruct vs; [congruence|discriminate]).
    assert (BF : forall b k c s, fresh b s -> match emplace_samples draw ceil10 es ctx n k c s with Ret _ s' => coh True s' | Thr s' => fresh b s' | _ => True end).
    { intros. apply emplace_fresh; auto. }
    assert (BP : forall b k c s, fresh b s -> pw 1 s -> opw 1 (emplace_samples draw ceil10 es ctx n k c s)) by (intros; eapply emplace_pw; eauto).
    destruct (neqb n1 p) eqn:NP.
    - rewrite range_all_ok by auto. cbn [lift obind]. apply (all_loop_pw _ BF BP _ b); auto.
    - destruct P as [P|P]; [congruence|]. rewrite group_size_prod. unfold vs at 1. rewrite combinations_order by auto.
      destruct (floorf _) as [|fl]; [congruence|].
      unfold range_of_group. cbn [g_soup].
      assert (RG : exists f, range_of_group (mkGroup vs vs) = Some (mkRData (map vsize vs) (map (fun _ => 0) (map vsize vs)) f)) by (eexists; reflexivity).
      destruct RG as (f & RG). unfold range_of_group in RG. cbn [g_soup] in RG. rewrite RG.
      assert (V0 : valid_comb (map vsize vs) (map (fun _ => 0) (map vsize vs))) by (clear -POS; induction POS; simpl; constructor; auto).
      assert (I0 : idx (map vsize vs) (map (fun _ => 0) (map vsize vs)) = 0).
      { clear. induction vs as [|v vs IH]; simpl; auto. }
      match goal with |- context [some_loop _ _ _ ?d _ _ _ _ _] => pose proof (some_loop_pw _ BF BP (map vsize vs) d f NE' (prodn (map vsize vs)) b 0 _ [] (c_r c) V0 F W) as Q end.
      rewrite I0 in Q. exact Q.
  Qed.

  (** {1 Construction} *)
  Lemma count_blank s : coh True s -> blank s -> count s = 0.
  Proof.
    intros C B. unfold count. destruct (keys (gsize (r_g s)) (g_ev (r_g s))) as [|a l] eqn:K; auto. exfalso.
    assert (J : In a (keys (gsize (r_g s)) (g_ev (r_g s)))) by (rewrite K; left; auto). unfold keys in J. apply filter_In in J as [L J].
    destruct (g_ev (r_g s) a) as [k|] eqn:Ev; [|discriminate]. destruct (co_ev _ _ _ (proj1 (ch_inv _ _ C)) a k Ev) as (v & V & _).
    specialize (B v). unfold unobserved, sp_observed in B. change (vname v, vsize v) with (vkey v) in B.
    rewrite <- (ab_ev _ _ (coh_abs True s C) a v V), Ev in B. rewrite andb_true_r in B.
    assert (X : sp_known (spec_of (r_g s)) v = true). { unfold sp_known. apply existsb_exists. exists v. split. eapply nth_error_In; exact V. apply same_key_spec. auto. }
    congruence.
  Qed.
  Lemma keys_fupd (m : nat -> option nat) a k n : length (keys n (fupd m a (Some k))) <= S (length (keys n m)).
  Proof.
    assert (G : forall l, NoDup l -> length (filter (fun x => is_some (fupd m a (Some k) x)) l) <= S (length (filter (fun x => is_some (m x)) l)) /\
      (~ In a l -> length (filter (fun x => is_some (fupd m a (Some k) x)) l) = length (filter (fun x => is_some (m x)) l))).
    { induction l as [|x l IH]; intros D; simpl. auto. inversion D; subst. destruct (IH H2) as [I1 I2]. destruct (Nat.eq_dec x a) as [->|NE].
      - rewrite fupd_eq. simpl. split; [|tauto]. rewrite (I2 H1). destruct (is_some (m a)); simpl; lia.
      - rewrite fupd_ne by auto. split. destruct (is_some (m x)); simpl; lia. intros NI. assert (Q := I2 (fun J => NI (or_intror J))). destruct (is_some (m x)); simpl; lia. }
    apply G. apply seq_NoDup.
  Qed.
  Lemma set_evidence_fin e w k s : full True s -> awake (r_g s) -> env_ok e ->
    match on_g (fun g => set_evidence (r_h s) e g w k) s with Ret _ t => full True t /\ awake (r_g t) /\ count t <= S (count s) | Undef => False | NotNum => Safe.stops N | _ => True end.
  Proof.
    intros F A E. pose proof (fl_coh _ _ F) as C.
    assert (G : rsafe s (RGraph (OSet w k))). { split. split; simpl; auto. unfold safe_use. splits; simpl; auto. intros n Q. discriminate Q. }
    pose proof (rcall_full True e (RGraph (OSet w k)) s F eq_refl (rsafe_steady s _ G) E) as X. pose proof (rcall_fin e (RGraph (OSet w k)) s F A eq_refl G E) as Y.
    cbn [rcall] in X, Y. unfold on_g, call, omap in *.
    destruct (set_evidence_ok (r_h s) (coh_solid True s C) (r_g s) (g_all (r_g s)) e w k (proj1 (ch_inv _ _ C)) (proj2 (ch_inv _ _ C)) E) as [[_ Q]|(_ & b & g & _ & Q & _ & _ & GV & GE & _)]; rewrite Q in *; simpl in *; auto.
    splits. apply X. exact Y. unfold count, gsize. cbn [r_g set_g]. rewrite GV, GE. apply keys_fupd.
  Qed.
  Lemma src_evidences_fin e (src : rst) (l : list nat) : env_ok e -> (forall a, In a l -> exists v k, var_at (r_g src) a v /\ g_ev (r_g src) a = Some k) -> forall s, full True s -> awake (r_g s) ->
    match ofold (fun a s =>
             do (v, s) <- lift (node_var (r_g src) a) s ;;
             match g_ev (r_g src) a with
             | None => Undef
             | Some k =>
                 do (w, s) <- lift (find_variable (r_g s) (vname v)) s ;;
                 on_g (fun g => set_evidence (r_h s) e g w k) s
             end) l s with
    | Ret _ t => full True t /\ awake (r_g t) /\ count t <= length l + count s | Undef => False | NotNum => Safe.stops N | _ => True end.
  Proof.
    intros E. induction l as [|a l IH]; cbn [ofold]; intros HL s F A. splits; auto.
    destruct (HL a (or_introl eq_refl)) as (v & k & V & Ev). rewrite (node_var_ok _ _ _ V), Ev. cbn [lift obind].
    unfold find_variable. destruct (find _ _) as [w|]; cbn [lift obind]; auto.
    pose proof (set_evidence_fin e w k s F A E) as X. destruct (on_g _ s) as [[] s1|s1| | |]; cbn [obind]; auto. destruct X as (F1 & A1 & L1).
    specialize (IH (fun x J => HL x (or_intror J)) s1 F1 A1). destruct (ofold _ l s1) as [[] t|t| | |]; auto. destruct IH as (F2 & A2 & L2). splits; auto. simpl. lia.
  Qed.
  Lemma replace_nu s b : coh True s -> tuner_ok s b -> nu (fun _ => True) (replace_if_needed s b).
  Proof.
    intros C [L T]. assert (ND : NoDup (map vkey (g_vars (r_g s)))) by (apply C).
    assert (FD : incl (f_vars (r_h s (bt_fac b))) (g_vars (r_g s)) -> exists fd, make_finder (r_h s (bt_fac b)) (g_vars (r_g s)) = Ok fd).
    { intros IC. destruct (make_finder_ok (r_h s (bt_fac b)) (g_vars (r_g s))) as (fd & Q & _); eauto. apply NoDup_incl_length; auto.
      destruct (built_solid _ (ri_built _ (ch_r _ _ C) (bt_fac b))) as ((_ & [D _]) & _). apply NoDup_map_inv in D. exact D. }
    unfold replace_if_needed. destruct (bt_kind b) as [a|a c|] eqn:KB; [| |destruct T].
    - destruct T as (v & FV & V & IX). rewrite FV. destruct (observed_at _ _); simpl; auto.
    - destruct T as (v & w & FV & V & W & IX). destruct FD as (fd & Qf).
      { rewrite FV. intros x [<-|[<-|[]]]; eapply nth_error_In; eauto. }
      rewrite FV. destruct (observed_at_ok s a v ND V) as [O F]. destruct (observed_at_ok s c w ND W) as [O' F']. rewrite O, O', F, F'.
      destruct (g_ev (r_g s) a), (g_ev (r_g s) c); cbn [nu]; auto; rewrite Qf; cbn [rbind]; [rewrite (node_var_ok _ _ _ V)|rewrite (node_var_ok _ _ _ W)]; simpl; auto.
  Qed.
  (** the constructor: from a random field or from a conditional random field *)
  Lemma crf_ctor_fin e src copy : (forall f, built (r_h src f)) -> env_ok e -> rinv src -> shape (r_h src) (r_g src) ->
    match crf_ctor e src copy with Ret c s => awake (r_g s) /\ count s <= length (c_pos c) | Undef => False | NotNum => Safe.stops N | _ => True end.
  Proof.
    intros Hb E I SH. unfold crf_ctor, crf_absorb. destruct (keys (gsize (r_g src)) (g_ev (r_g src))) eqn:K; [exact Logic.I|].
    pose proof (full_empty True (r_h src) (r_top src) Hb) as F0.
    assert (A0 : awake (r_g (r_empty (r_h src) (r_top src)))). { split. reflexivity. intros L. exfalso. apply L. reflexivity. }
    assert (B0 : blank (r_empty (r_h src) (r_top src))). { intros v. apply unobserved_none. reflexivity. }
    assert (O1 : forall f, In f (e_ord e 0 (r_const src)) -> object (r_empty (r_h src) (r_top src)) f).
    { intros f J. apply ord_In in J; auto. apply (ri_top _ I). apply (ri_in _ I). apply in_or_app; auto. }
    pose proof (absorb_const_fin _ (e_ord e 0 (r_const src)) copy F0 A0 O1) as [P1 A1].
    destruct (absorb_const _ copy _) as [[] s1|s1| | |]; cbn [obind ofull oaw] in *; auto.
    destruct P1 as [[_ L1 U1] F1]. assert (B1 : blank s1) by (intros v; apply U1; auto).
    pose proof (absorb_clusters_fin s1 copy (tunable_clusters src) F1 A1 (fun c J => ri_ne _ I c J)) as P2.
    assert (X1 : forall c f, In c (tunable_clusters src) -> In f c -> expo s1 f).
    { intros c0 f Jc Jf. eapply expo_le; [exact L1|]. assert (J : In f (concat (tunable_clusters src))) by (apply in_concat; eauto).
      split. apply (ri_top _ I). apply (ri_in _ I). apply in_or_app. right. apply (ri_tun _ I); auto. apply (ri_exp _ I). auto. }
    assert (X2 : forall c f, In c (tunable_clusters src) -> In f c -> on_hidden s1 f) by (intros c0 f _ _ v _; apply B1).
    destruct (P2 X1 X2) as [P2' A2]. clear P2.
    destruct (absorb_clusters copy (tunable_clusters src) s1) as [[] s2|s2| | |]; cbn [obind ofull oaw] in *; auto.
    destruct P2' as [[_ _ U2] F2]. assert (B2 : blank s2) by (intros v; apply U2; auto).
    assert (HL : forall a, In a (evidence_order e (r_g src)) -> exists v k, var_at (r_g src) a v /\ g_ev (r_g src) a = Some k).
    { intros a J. unfold evidence_order in J. apply ord_In, keys_In in J as [_ J]; auto. destruct J as (k0 & Ev).
      destruct (sh_ev _ _ SH a k0 Ev) as (v & V & _). eauto. }
    pose proof (src_evidences_fin e src _ E HL s2 F2 A2) as P3.
    match goal with |- context [ofold ?f ?l s2] => destruct (ofold f l s2) as [[] s3|s3| | |] end; cbn [obind] in *; auto.
    destruct P3 as (F3 & A3 & L3). rewrite (count_blank s2 (fl_coh _ _ F2) B2) in L3.
    assert (RN : nu (fun _ => True) (rmap (replace_tuner s3) (r_tuners s3))).
    { eapply nu_imp; [|intros; exact Logic.I]. apply (rmap_nu (fun _ => True)). intros t J. pose proof (fun b => fl_tin _ _ F3 t b J) as T. destruct t as [b|bs]; cbn [replace_tuner].
      - eapply nu_bind. apply replace_nu. apply F3. apply T. left; auto. simpl; auto.
      - eapply nu_bind; [|simpl; intros; exact Logic.I]. eapply nu_imp; [|intros ? _; exact Logic.I]. apply (rmap_nu (fun _ => True)). intros b Jb. apply replace_nu. apply F3. apply T. auto. }
    destruct (rmap (replace_tuner s3) (r_tuners s3)) as [ts| | | |]; cbn [lift obind nu c_pos] in *; auto.
    split. exact A3. change (count s3 <= length (find_positions (g_vars (r_g src)) (observed_order e (r_g src)))).
    unfold find_positions. rewrite map_length. unfold observed_order. rewrite (Permutation_length (permute_perm _ _ (proj1 E _))).
    rewrite <- (F2_len _ _ _ (observed_nth e _ _ SH E)). lia.
  Qed.

  (** {1 Histories} *)
  Lemma fresh_pool b s p : fresh b s -> fresh b (set_g s (set_pool (r_g s) p)).
  Proof. intros F. destruct b; simpl in *. apply weak_g; auto. apply coh_keeps; auto. apply keeps_pool. Qed.
  Lemma csafe_allowed b s pos op : shape (r_h s) (r_g s) -> csafe b s pos op -> allowed b s op.
  Proof.
    intros SH G. destruct op; simpl in *; auto; try apply G; try (apply attached_exposed; auto).
    destruct G as [-> (_ & _ & Q & _)]. split; auto. intros n Hn. apply (Q n Hn).
  Qed.
  Theorem ccall_pw b c e op : clives b c -> pw 1 (c_r c) -> count (c_r c) <= length (c_pos c) -> cok op -> csafe b (c_r c) (c_pos c) op -> env_ok e ->
    opw 1 (ccall e (c_pos c) op (c_r c)).
  Proof.
    intros R W LP K G E. pose proof (clives_creach b c R) as CR. pose proof (creach_inv c CR) as I. destruct (clives_full b c R) as [F T EN].
    destruct op; cbn [ccall cok csafe] in *; apply opw_map.
    - apply set_evidences_pw; auto.
    - destruct G as [-> G]. simpl in F. pose proof (coh_solid True _ F) as HG.
      pose proof (call_defined (r_h (c_r c)) HG _ e op (r_g (c_r c)) (ch_inv _ _ F) (coh_abs True _ F) (ch_clean _ _ F Logic.I) W E G) as [Q0 Q1].
      pose proof (fun g => call_awake (r_h (c_r c)) HG _ e op (r_g (c_r c)) g (ch_inv _ _ F) (coh_abs True _ F) (ch_clean _ _ F Logic.I) W E G) as Q2.
      unfold on_g. destruct (call (r_h (c_r c)) e op (r_g (c_r c))) as [a g|g| | |]; simpl in *; auto.
      + apply (Q2 g). right. eauto.
      + apply (Q2 g). left. auto.
    - apply oaw_opw, set_weights_aw; auto. apply I.
    - apply oaw_opw, set_all_ones_aw; auto. apply I.
    - destruct G as (L & B & IR & PB). apply scoped_pw; auto. intros q t Et St. rewrite St, Et. set (s := c_r c) in *.
      apply (crf_gradient_pw q es (c_pos c) it b); auto.
      + apply fresh_pool; auto.
      + apply (creach_some c CR).
      + split. reflexivity. intros Z. apply (warm_ext (r_g s)); auto. apply W. exact Z.
    - destruct G as [-> G]. apply samples_pw; auto.
    - destruct G as [L P]. apply (train_pw draw floorf ceil10 e es ctx percentage threads b); auto.
  Qed.
  Theorem proper_lives b c : proper b c -> clives b c /\ pw 1 (c_r c) /\ count (c_r c) <= length (c_pos c).
  Proof.
    intros R. induction R as [h top src e copy c s Hb R E Q|b c0 e c s R IH E Q|b c e op a s R IH K G E Q|b c e op s R IH K G E Q].
    - assert (R' : rreach h top any src) by (eapply rreach_mono; [|exact R]; unfold any; auto).
      destruct (rreach_fin h top src Hb R) as [F A]. pose proof (ch_r _ _ (fl_coh _ _ F)) as I. pose proof (core_shape _ _ (proj1 (ch_inv _ _ (fl_coh _ _ F)))) as SH.
      pose proof (crf_ctor_fin e src copy (ri_built _ I) E I SH) as X. pose proof (crf_ctor_coh e src copy c s (ri_built _ I) E I Q) as (_ & CS & _). rewrite Q in X.
      splits. eapply CL_field; eauto. rewrite CS. apply X. rewrite CS. apply X.
    - destruct IH as (L & W & LP). pose proof (creach_inv c0 (clives_creach b c0 L)) as I.
      pose proof (crf_ctor_fin e (c_r c0) false (ri_built _ (ci_r _ I)) E (ci_r _ I) (ci_shape _ I)) as X.
      pose proof (crf_ctor_coh e (c_r c0) false c s (ri_built _ (ci_r _ I)) E (ci_r _ I) Q) as (_ & CS & _). rewrite Q in X.
      splits. eapply CL_copy; eauto. rewrite CS. apply X. rewrite CS. apply X.
    - destruct IH as (L & W & LP). pose proof (creach_inv c (clives_creach b c L)) as I. pose proof (ccall_pw b c e op L W LP K G E) as X.
      pose proof (ccall_cst e (c_pos c) op (c_r c) I K E) as Y. rewrite Q in X, Y. splits.
      + eapply CL_ret; eauto. eapply csafe_allowed; eauto. apply I.
      + exact X.
      + cbn [c_r c_pos]. rewrite (count_frozen (c_r c) s); auto. apply Y.
    - destruct IH as (L & W & LP). pose proof (creach_inv c (clives_creach b c L)) as I. pose proof (ccall_pw b c e op L W LP K G E) as X.
      pose proof (ccall_cst e (c_pos c) op (c_r c) I K E) as Y. rewrite Q in X, Y. splits.
      + eapply CL_thr; eauto. eapply csafe_allowed; eauto. apply I.
      + exact X.
      + cbn [c_r c_pos]. rewrite (count_frozen (c_r c) s); auto. apply Y.
  Qed.
  Theorem proper_defined b (c : crf (N:=N)) e op : proper b c -> cok op -> csafe b (c_r c) (c_pos c) op -> env_ok e ->
    ccall e (c_pos c) op (c_r c) <> Undef /\ (ccall e (c_pos c) op (c_r c) = NotNum -> Safe.stops N).
  Proof.
    intros R K G E. destruct (proper_lives b c R) as (L & W & LP). pose proof (ccall_pw b c e op L W LP K G E) as Q. split; intros Z; rewrite Z in Q; exact Q.
  Qed.
End CondSafe.
