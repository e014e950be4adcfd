(** Random fields whose cached factors agree with the weights: the histories that
    keep the graph of a model coherent with the objects it refers to *)
From Coq Require Import String List Arith Bool Lia Permutation.
From Verif Require Import Res Num Categoric Combs Func FuncProofs GroupProofs FactorProofs FactorApi Special SpecialProofs Graph GraphLemmas GraphInv
  EvidInv BeliefInv Belief Query GraphSpec Hist BeliefHist Train TrainHist.
Import ListNotations.
Open Scope nat_scope.

(** {1 Changes of the heap} *)
Section Heap.
  Context {N : num}.
  Notation gst := (gst (N:=N)).
  Implicit Types s : gst.

  Lemma merge_of_heap (H H' : nat -> func N) e s a : (forall f, In f (nd_un (g_node s a)) -> H' f = H f) -> merge_of H' e s a = merge_of H e s a.
  Proof.
    intros E. unfold merge_of. assert (Q : gather_unaries H' e s a = gather_unaries H e s a).
    { unfold gather_unaries. f_equal. apply map_ext_in. intros f J. rewrite E; auto. }
    rewrite Q. auto.
  Qed.

  (** no stored factor depends on the changed objects *)
  Record harmless (H H' : nat -> func N) s : Prop := {
    hl_vars : forall f, In f (g_all s) -> fvars H' f = fvars H f;
    hl_un : forall a f, g_ev s a = None -> nd_merged (g_node s a) <> None -> In f (nd_un (g_node s a)) -> H' f = H f;
    hl_dis : forall a b c, g_ev s a = None -> g_ev s b <> None -> dis s a b = Some c -> H' (c_fac c) = H (c_fac c)
  }.
  Lemma core_heap (H H' : nat -> func N) s : harmless H H' s -> core H s (g_all s) -> core H' s (g_all s).
  Proof.
    intros [HV HU HD] C.
    assert (LK : forall a b f, link H s (g_all s) a b f -> link H' s (g_all s) a b f).
    { intros a b f (Q1 & Q2 & va & vb & Q3 & Q4 & Q5). split; auto. split; auto. exists va, vb. rewrite HV by auto. auto. }
    destruct C. constructor; try assumption.
    - intros a b c Q. apply LK. eauto.
    - intros a b c Q. apply LK. eauto.
    - intros a f Q. destruct (co_un a f Q) as (J & v & V & E). split; auto. exists v. rewrite HV; auto.
    - intros f J. destruct (co_fac f J) as [(v & a & E & R)|(va & vb & a & b & c & E & R)].
      left. exists v, a. rewrite HV by auto. auto. right. exists va, vb, a, b, c. rewrite HV by auto. auto.
    - intros a b c k v Ea Eb D V. rewrite (HD a b c); eauto. congruence.
    - intros a m Ea Em. destruct (co_merged a m Ea Em) as (e & Ee & Q). exists e. split; auto. rewrite <- Q. apply merge_of_heap.
      intros f J. apply (HU a); auto. congruence.
  Qed.
  Lemma inv_heap (H H' : nat -> func N) s : harmless H H' s -> inv H s -> inv H' s.
  Proof. intros L [C CS]. split; auto. eapply core_heap; eauto. Qed.
  Lemma harmless_out (H H' : nat -> func N) s : core H s (g_all s) -> (forall f, In f (g_all s) -> H' f = H f) -> harmless H H' s.
  Proof.
    intros C E. constructor.
    - intros f J. unfold fvars. rewrite E; auto.
    - intros a f _ _ J. apply E. apply (co_un _ _ _ C a f J).
    - intros a b c _ _ D. apply E. apply (co_dis _ _ _ C a b c D).
  Qed.

  (** the specification of the contents of a graph *)
  Definition spec_of s : spec :=
    mkSpec (g_vars s)
           (fun k => match find_pos (fun v => String.eqb (vname v) (fst k) && (vsize v =? snd k)) (g_vars s) with Some a => g_ev s a | None => None end)
           (g_all s).
  Lemma key_test k v : String.eqb (vname v) (fst k) && (vsize v =? snd k) = true <-> vkey v = k.
  Proof.
    destruct k as [n z]. unfold vkey. simpl. rewrite andb_true_iff, String.eqb_eq, Nat.eqb_eq. split.
    intros [-> ->]; auto. intros [= -> ->]; auto.
  Qed.
  Lemma spec_of_abs s : NoDup (map vkey (g_vars s)) -> abs s (spec_of s).
  Proof.
    intros ND. constructor; auto.
    - intros a v V. simpl. change (g_ev s a = match find_pos (fun w => String.eqb (vname w) (fst (vkey v)) && (vsize w =? snd (vkey v))) (g_vars s) with Some b => g_ev s b | None => None end).
      destruct (find_pos _ _) as [b|] eqn:F.
      + apply find_pos_some in F as (w & W & E & _). apply key_test in E. f_equal.
        eapply (NoDup_nth_error (map vkey (g_vars s))); auto.
        * rewrite map_length. apply nth_error_Some. unfold var_at in V. congruence.
        * rewrite !nth_error_map. unfold var_at in V. rewrite V, W. simpl. congruence.
      + exfalso. apply (find_pos_none _ _) with (x := v) in F. 2:{ eapply nth_error_In; eauto. }
        rewrite (proj2 (key_test (vkey v) v) eq_refl) in F. discriminate.
    - intros k J. simpl. destruct (find_pos _ _) as [b|] eqn:F; auto. exfalso. apply J. apply find_pos_some in F as (w & W & E & _).
      apply key_test in E. subst. apply in_map. eapply nth_error_In; eauto.
  Qed.

  (** a unary factor just inserted is in no stored product *)
  Lemma add_merged (H : nat -> func N) s f s' : core H s (g_all s) -> core H s' (g_all s') -> add_distribution H s (Some f) = Ret tt s' ->
    forall a, In f (nd_un (g_node s' a)) -> nd_merged (g_node s' a) = None.
  Proof.
    intros C C' E a J. pose proof (co_un _ _ _ C' a f J) as (_ & v & _ & Ef).
    unfold add_distribution in E. destruct (mem f (g_all s)) eqn:M; [discriminate|]. apply mem_false in M.
    rewrite Ef in E. cbn [length] in E. unfold add_unary in E. rewrite Ef in E. cbn [vget nth_error lift obind] in E.
    assert (NU : forall b, ~ In f (nd_un (g_node s b))) by (intros b Q; apply M; apply (co_un _ _ _ C b f Q)).
    unfold find_or_make in E.
    assert (K : forall (t : gst) b, (forall x, ~ In f (nd_un (g_node t x))) ->
      forall x, In f (nd_un (g_node (drop_merged (set_node t b (with_un (g_node t b) (nd_un (g_node t b) ++ [f]))) b) x)) ->
      nd_merged (g_node (drop_merged (set_node t b (with_un (g_node t b) (nd_un (g_node t b) ++ [f]))) b) x) = None).
    { intros t b NT x. unfold drop_merged, set_node. cbn [g_node]. destruct (Nat.eq_dec x b) as [->|D].
      - rewrite !fupd_eq. auto.
      - rewrite !(fupd_ne _ _ _ _ D). intros Q. exfalso. eapply NT; eauto. }
    destruct (locate (reset_belief s) v) as [[b l]|].
    - destruct (node_var (reset_belief s) b) as [w| | | |]; cbn [lift obind] in E; try discriminate.
      destruct (var_peqb v w); cbn [obind] in E; try discriminate.
      injection E as <-. apply (K (reset_belief s) b NU a J).
    - cbn [obind] in E. injection E as <-. eapply K; [|exact J]. intros x. cbn [g_node]. unfold fupd. destruct (x =? _). simpl; auto. apply NU.
  Qed.
End Heap.

(** {1 Histories} *)
Section Coherent.
  Context {N : num} (OK : num_ok N).
  Notation gst := (gst (N:=N)).
  Notation rst := (rst (N:=N)).
  Notation rop := (rop (N:=N)).
  Implicit Types s : rst.

  (** the graph agrees with the objects; [P] tells if it has no connection left
      active between an observed variable and another (see [clean]) *)
  Record coh (P : Prop) s : Prop := {
    ch_r : rinv s;
    ch_inv : inv (r_h s) (r_g s);
    ch_clean : P -> clean (r_g s)
  }.

  (** the variable is not observed *)
  Definition unobserved s (v : var) : Prop := sp_observed (spec_of (r_g s)) v = false.
  (** the tunable factors join pairs of variables without evidence *)
  Definition tunables_hidden s : Prop :=
    forall c f, In c (tunable_clusters s) -> In f c ->
      length (f_vars (r_h s f)) = 2 /\ forall v, In v (f_vars (r_h s f)) -> unobserved s v.
  Definition on_hidden s f : Prop := forall v, In v (f_vars (r_h s f)) -> unobserved s v.

  (** the calls after which the stored factors still are those of the objects *)
  Definition careful (P : Prop) s (op : rop) : Prop :=
    match op with
    | RTun (Some f) (Some _) | RCopyTun f (Some _) => on_hidden s f
    | RAbsorbClusters _ cs => forall c f, In c cs -> In f c -> on_hidden s f
    | RWeights _ | ROnes => tunables_hidden s
    | RGraph op => no_failed_removal (spec_of (r_g s)) op /\ (P -> separated_removal (fvars (r_h s)) (spec_of (r_g s)) op)
    | _ => True
    end.

  Lemma coh_abs P s : coh P s -> abs (r_g s) (spec_of (r_g s)).
  Proof. intros C. apply spec_of_abs. apply C. Qed.
  Lemma coh_good P s : coh P s -> goods (r_h s).
  Proof. intros C f. apply (built_good OK). apply C. Qed.
  Lemma coh_solid P s : coh P s -> solids (r_h s).
  Proof. intros C. apply built_solids. apply C. Qed.
  Lemma unobserved_ev P s A v : coh P s -> abs (r_g s) A -> (unobserved s v <-> sp_ev A (vkey v) = None).
  Proof.
    intros C AB. destruct (abs_same_spec _ _ _ (coh_abs P s C) AB) as (_ & _ & E). rewrite E.
    unfold unobserved, sp_observed, sp_known. change (vname v, vsize v) with (vkey v).
    destruct (existsb (same_key v) (sp_vars (spec_of (r_g s)))) eqn:K; cbn [andb].
    - destruct (sp_ev (spec_of (r_g s)) (vkey v)); split; congruence.
    - split; auto. intros _. apply (ab_none _ _ (coh_abs P s C)). intros J. apply existsb_key in J.
      change (sp_vars (spec_of (r_g s))) with (g_vars (r_g s)) in K. congruence.
  Qed.
  Lemma unobserved_at P s v a w : coh P s -> unobserved s v -> var_at (r_g s) a w -> vkey w = vkey v -> g_ev (r_g s) a = None.
  Proof.
    intros C U W K. rewrite (ab_ev _ _ (coh_abs P s C) a w W), K. apply (unobserved_ev P s _ v C); auto. eapply coh_abs; eauto.
  Qed.

  Record cstep (P : Prop) s s' : Prop := {
    cs_coh : coh P s';
    cs_le : rle s s';
    cs_un : forall v, unobserved s v -> unobserved s' v
  }.
  Definition ocoh {B} P s (o : out rst B) : Prop := match o with Ret _ s' | Thr s' => cstep P s s' | _ => True end.
  Lemma cstep_refl P s : coh P s -> cstep P s s.
  Proof. intros C. constructor; auto. apply rle_refl. Qed.
  Lemma cstep_trans P s t u : cstep P s t -> cstep P t u -> cstep P s u.
  Proof. intros [] []. constructor; auto. eapply rle_trans; eauto. Qed.
  Lemma ocoh_bind {B D} P s (o : out rst B) (f : B -> rst -> out rst D) :
    ocoh P s o -> (forall b s', o = Ret b s' -> cstep P s s' -> ocoh P s (f b s')) -> ocoh P s (obind o f).
  Proof. destruct o; simpl; auto. Qed.
  Lemma ocoh_lift {B} P s s' (r : res B) : cstep P s s' -> ocoh P s (lift r s').
  Proof. destruct r; simpl; auto. Qed.
  Lemma ocoh_fold {B} P (f : B -> rst -> out rst unit) l s : forall s', cstep P s s' ->
    (forall b s', In b l -> cstep P s s' -> ocoh P s (f b s')) -> ocoh P s (ofold f l s').
  Proof. induction l as [|b l IH]; simpl; intros s' E F; auto. apply ocoh_bind; auto. Qed.
  Lemma ocoh_catch P s o : ocoh P s o -> ocoh P s (try_catch o).
  Proof. destruct o; simpl; auto. Qed.
  Lemma ocoh_from {B} P s t (o : out rst B) : cstep P s t -> ocoh P t o -> ocoh P s o.
  Proof. intros E. destruct o; simpl; auto; intros F; eapply cstep_trans; eauto. Qed.
  Lemma ocoh_map {B} P s (f : B -> answer) o : ocoh P s o -> ocoh P s (rmapo f o).
  Proof. destruct o; simpl; auto. Qed.

  (** a change of the graph *)
  Lemma coh_g P s g : coh P s -> step s (set_g s g) -> inv (r_h s) g -> (P -> clean g) -> coh P (set_g s g).
  Proof. intros C ST I CL. constructor; auto. apply ST. Qed.
  (** objects of which nothing is stored may change; so may the lists of the tuners *)
  Lemma coh_h P s s' : coh P s -> rinv s' -> r_g s' = r_g s -> harmless (r_h s) (r_h s') (r_g s) -> coh P s'.
  Proof.
    intros C I E L. constructor; auto; rewrite E. eapply inv_heap; eauto. apply C. apply C.
  Qed.
  Lemma same_un s s' : r_g s' = r_g s -> forall v, unobserved s v -> unobserved s' v.
  Proof. intros E v. unfold unobserved. rewrite E. auto. Qed.

  Lemma alloc_coh P s f : coh P s -> built f -> cstep P s (snd (alloc s f)).
  Proof.
    intros C B. pose proof (alloc_step s f (ch_r _ _ C) B) as [I L]. constructor; auto.
    - eapply coh_h; eauto. apply harmless_out. apply C. intros k J. simpl. apply fupd_ne.
      intros ->. apply (ri_top _ (ch_r _ _ C)) in J. lia.
  Qed.

  Lemma sp_add_ev A fv f k : sp_ev (snd (sp_add fv A f)) k = sp_ev A k.
  Proof.
    assert (I : forall A v, sp_ev (sp_insert A v) k = sp_ev A k). { intros B v. unfold sp_insert. destruct (sp_known B v); auto. }
    unfold sp_add. destruct (existsb _ _); auto. destruct (fv f) as [|x [|y [|]]]; auto.
    - destruct (sp_conflict A x); auto. cbn [snd]. apply I.
    - destruct (sp_conflict A x); auto. destruct (sp_conflict A y). apply I. destruct (sp_joined fv A x y); auto.
      cbn [snd]. unfold sp_push. cbn [sp_ev]. rewrite !I. auto.
  Qed.
  Lemma on_g_add_coh P s d : coh P s -> (forall f, d = Some f -> object s f) ->
    ocoh P s (on_g (fun g => add_distribution (r_h s) g d) s).
  Proof.
    intros C Hd. pose proof (on_g_add s d (ch_r _ _ C) Hd) as ST. destruct d as [f|].
    2:{ unfold on_g in *. cbn [add_distribution] in *. assert (E : set_g s (r_g s) = s) by (destruct s; auto).
        cbn [ocoh]. rewrite E in *. apply cstep_refl; auto. }
    destruct (add_does (r_h s) (coh_solid P s C) (r_g s) (spec_of (r_g s)) f (ch_inv _ _ C) (coh_abs P s C)) as (g & E & I & AB & CL).
    unfold on_g in *. rewrite E in *.
    assert (K : step s (set_g s g)) by (destruct (fst _); apply ST).
    assert (Q : cstep P s (set_g s g)).
    { assert (CG : coh P (set_g s g)). { apply coh_g; auto. intros p. apply CL. apply C. auto. }
      constructor; auto. apply K. intros v U. apply (unobserved_ev P _ _ v CG AB). rewrite sp_add_ev.
      apply (unobserved_ev P s _ v C); auto. eapply coh_abs; eauto. }
    destruct (fst _); exact Q.
  Qed.

  Lemma add_const_coh P s d : coh P s -> (forall f, d = Some f -> object s f) -> ocoh P s (add_const d s).
  Proof.
    intros C Hd. pose proof (add_const_step s d (ch_r _ _ C) Hd) as ST. unfold add_const in *.
    pose proof (on_g_add_coh P s d C Hd) as Q. destruct (on_g _ s) as [[] s'|s'| | |]; cbn [obind ocoh ostep] in *; auto.
    destruct Q as [CC L U]. destruct ST as [I L']. constructor; auto.
    - destruct CC as [_ CI CL]. constructor; auto; destruct d; auto.
    - intros v X. apply U in X. destruct d; auto.
  Qed.
  Lemma copy_const_coh P s f : coh P s -> ocoh P s (copy_const f s).
  Proof.
    intros C. unfold copy_const. apply ocoh_bind. apply ocoh_lift. apply cstep_refl; auto.
    intros c s' Q _. destruct (factor_clone_transformed (r_h s f)) as [c'| | | |] eqn:E; simpl in Q; try discriminate.
    injection Q as <- <-. assert (ST : cstep P s (snd (alloc s c'))). { apply alloc_coh; auto. eapply b_clone; eauto. apply C. }
    cbn [alloc snd] in *. eapply ocoh_from. exact ST. apply add_const_coh. apply ST. intros k [= <-]. unfold object. simpl. lia.
  Qed.
  Lemma absorb_const_coh P s l copy : coh P s -> (forall f, In f l -> object s f) -> ocoh P s (absorb_const l copy s).
  Proof.
    intros C Hl. unfold absorb_const. apply ocoh_fold. apply cstep_refl; auto. intros f s' J ST. apply ocoh_catch.
    eapply ocoh_from. exact ST. destruct copy. apply copy_const_coh. apply ST. apply add_const_coh. apply ST.
    intros k [= <-]. eapply object_le. apply ST. auto.
  Qed.

  (** {1 Weights} *)
  Lemma hidden_harmless P s h' : coh P s -> tunables_hidden s -> (forall f, f_group (h' f) = f_group (r_h s f)) ->
    (forall f, ~ In f (concat (tunable_clusters s)) -> h' f = r_h s f) -> harmless (r_h s) h' (r_g s).
  Proof.
    intros C TH G E. pose proof (ch_inv _ _ C) as [CO _].
    assert (D : forall f, h' f = r_h s f \/ (length (f_vars (r_h s f)) = 2 /\ forall v, In v (f_vars (r_h s f)) -> unobserved s v)).
    { intros f. destruct (in_dec Nat.eq_dec f (concat (tunable_clusters s))) as [J|J]; auto.
      right. apply in_concat in J as (c & Jc & Jf). apply (TH c f); auto. }
    constructor.
    - intros f _. unfold fvars, f_vars. rewrite G. auto.
    - intros a f _ _ J. destruct (co_un _ _ _ CO a f J) as (_ & v & _ & Ef). destruct (D f) as [?|[L _]]; auto.
      unfold fvars in Ef. rewrite Ef in L. discriminate.
    - intros a b c _ Eb Q. destruct (D (c_fac c)) as [?|[_ U]]; auto. exfalso. apply Eb.
      destruct (co_dis _ _ _ CO a b c Q) as (_ & _ & va & vb & _ & Vb & F). unfold fvars in F.
      eapply (unobserved_at P s vb b vb); eauto. apply U. destruct F as [-> | ->]; simpl; auto.
  Qed.

  Lemma set_weights_coh P s ws : coh P s -> tunables_hidden s -> ocoh P s (set_weights ws s).
  Proof.
    intros C TH. pose proof (set_weights_step s ws (ch_r _ _ C)) as ST.
    destruct (Nat.eq_dec (length ws) (length (r_tuners s))) as [L|L].
    2:{ unfold set_weights. apply Nat.eqb_neq in L. rewrite L. apply cstep_refl; auto. }
    destruct (set_weights_ok s ws (ch_r _ _ C) L) as (h' & E & P1 & P2). rewrite E in *. cbn [ocoh ostep] in *.
    destruct ST as [I' L'].
    assert (HM : harmless (r_h s) h' (r_g s)).
    { apply (hidden_harmless P); auto. intros f. destruct (in_dec Nat.eq_dec f (concat (tunable_clusters s))) as [J|J]; [|rewrite P2; auto].
      apply in_concat in J as (c & Jc & Jf). apply In_nth_error in Jc as (k & Hc).
      destruct (nth_error ws k) as [w|] eqn:Hw. rewrite (P1 k c w f); auto. exfalso. apply nth_error_None in Hw.
      assert (k < length (tunable_clusters s)) by (apply nth_error_Some; congruence). unfold tunable_clusters in H. rewrite map_length in H. lia. }
    assert (C1 : coh P (set_g (set_h s h') (reset_belief (r_g s)))).
    { constructor; auto.
      - cbn [r_h r_g set_g set_h]. pose proof (inv_heap _ _ _ HM (ch_inv _ _ C)) as [X Y].
        split. eapply core_same; [| | |exact X]; auto. eapply clus_same; [| | | |exact Y]; auto.
      - exact (ch_clean _ _ C). }
    constructor; auto.
  Qed.
  Lemma set_all_ones_coh P s : coh P s -> tunables_hidden s -> ocoh P s (set_all_ones s).
  Proof.
    intros C TH. unfold set_all_ones. destruct (get_weights s); cbn [lift obind]; try exact Logic.I; try (apply cstep_refl; auto).
    apply set_weights_coh; auto.
  Qed.

  (** {1 Tunable factors} *)
  Lemma add_tunable_coh P s d share : coh P s -> (forall f, d = Some f -> expo s f) ->
    (forall f, d = Some f -> share <> None -> on_hidden s f) -> ocoh P s (add_tunable d share s).
  Proof.
    intros C Hd HH. pose proof (add_tunable_step s d share (ch_r _ _ C) Hd) as ST. unfold add_tunable in *.
    pose proof (on_g_add_coh P s d C (fun f E => proj1 (Hd f E))) as Q.
    pose proof (on_g_add s d (ch_r _ _ C) (fun f E => proj1 (Hd f E))) as Q'.
    destruct (on_g _ s) as [[] s1|s1| | |] eqn:EG; cbn [obind ocoh ostep] in *; auto.
    destruct Q' as (_ & f & -> & NI & Ea & _ & ES). pose proof Q as [C1 L1 U1].
    destruct (make_tuner s1 f) as [t| | | |] eqn:ET; cbn [lift obind] in *; auto.
    pose proof (make_tuner_fac _ _ _ ET) as Ef.
    set (s2 := set_tun s1 (r_tun s1 ++ [f])) in *.
    assert (K : forall s3 : rst, step s s3 -> r_g s3 = r_g s1 -> harmless (r_h s1) (r_h s3) (r_g s1) -> cstep P s s3).
    { intros s3 [I3 L3] E3 HL. constructor; auto. eapply coh_h; eauto. intros v X. apply U1 in X. eapply same_un; eauto. }
    assert (K0 : harmless (r_h s1) (r_h s1) (r_g s1)) by (apply harmless_out; auto; apply C1).
    destruct share as [group|]; [|apply K; auto].
    destruct (find_tuner s2 group) as [i| | | |] eqn:EF; cbn [lift obind] in *; auto; [|apply K; auto].
    destruct (vget (r_tuners s2) i) as [old| | | |] eqn:EO; cbn [lift obind] in *; auto; [|apply K; auto].
    assert (EN : nth_error (r_tuners s2) i = Some old). { unfold vget in EO. destruct (nth_error (r_tuners s2) i); inversion EO; auto. }
    assert (Jold : In old (r_tuners s1)) by (eapply nth_error_In; eauto).
    set (new := TComp (bases old ++ [t])) in *. set (s3 := set_tuners s2 (lset (r_tuners s2) i new)) in *.
    destruct (tuner_weight (r_h s3) new) as [w| | | |] eqn:EW; cbn [lift obind] in *; auto; [|apply K; auto].
    assert (X1 : expo s1 f) by (eapply expo_le; [apply L1|auto]).
    destruct (tuner_set_weight_ok w new s3) as (h' & E & W1 & W2).
    { intros b Jb. cbn [bases new] in Jb. change (r_h s3) with (r_h s1). apply in_app_or in Jb as [Jb|[<-|[]]].
      apply (rinv_exp s1 old); auto. apply C1. rewrite Ef. apply X1. }
    rewrite E in *. cbn [ocoh ostep] in *. apply K; auto. cbn [r_h set_h].
    change (r_h s3) with (r_h s1) in *. cbn [bases new] in W1, W2.
    assert (OTH : forall k, k <> f -> h' k = r_h s1 k).
    { intros k NK. destruct (in_dec Nat.eq_dec k (map bt_fac (bases old ++ [t]))) as [J|J]; [|apply W2; auto].
      rewrite W1 by auto. rewrite map_app in J. apply in_app_or in J as [J|[J|[]]]; [|congruence].
      assert (Cold : In (map bt_fac (bases old)) (tunable_clusters s1)) by (apply in_map_iff; eauto).
      assert (EQ : f_exp (r_h s1 k) = Some w).
      { unfold new in EW. destruct (bases old) as [|b0 bs] eqn:EB. destruct J.
        cbn [app tuner_weight] in EW. unfold exp_get_weight in EW. destruct (f_exp (r_h s1 (bt_fac b0))) eqn:E0; inversion EW; subst.
        rewrite <- E0. apply (ri_eq _ (ch_r _ _ C1) _ _ _ Cold); auto. left; auto. }
      rewrite <- EQ. destruct (r_h s1 k); auto. }
    assert (GR : f_group (h' f) = f_group (r_h s1 f)).
    { destruct (in_dec Nat.eq_dec f (map bt_fac (bases old ++ [t]))) as [J|J]; [rewrite W1 by auto|rewrite W2 by auto]; auto. }
    assert (EA : add_distribution (r_h s) (r_g s) (Some f) = Ret tt (r_g s1)).
    { unfold on_g in EG. destruct (add_distribution (r_h s) (r_g s) (Some f)) as [[] g|g| | |]; try discriminate. injection EG as <-. auto. }
    assert (EH : r_h s1 = r_h s) by (rewrite ES; auto).
    pose proof (ch_inv _ _ C1) as [CO1 _]. pose proof (ch_inv _ _ C) as [CO _].
    constructor.
    - intros k _. destruct (Nat.eq_dec k f) as [->|NK]. unfold fvars, f_vars. rewrite GR. auto. unfold fvars. rewrite OTH; auto.
    - intros a k _ Em J. destruct (Nat.eq_dec k f) as [->|NK]; auto. exfalso. apply Em.
      apply (add_merged (r_h s) (r_g s) f); auto. rewrite <- EH. auto.
    - intros a b c _ Eb D. destruct (Nat.eq_dec (c_fac c) f) as [EC|NK]; auto. exfalso. apply Eb.
      destruct (co_dis _ _ _ CO1 a b c D) as (_ & _ & va & vb & _ & Vb & F). rewrite EC in F. unfold fvars in F.
      eapply (unobserved_at P s1 vb b vb); eauto. apply U1. apply (HH f); auto. discriminate. rewrite <- EH.
      destruct F as [-> | ->]; simpl; auto.
  Qed.

  Lemma exp_copy_group (f c : func N) : exp_copy f = Ok c -> f_group c = f_group f /\ f_exp c <> None.
  Proof.
    unfold exp_copy, exp_ctor. intros E. apply rbind_ok in E as (w & _ & E). apply rbind_ok in E as (es & _ & [= <-]). split; auto. discriminate.
  Qed.
  Lemma on_hidden_le P s s' f : cstep P s s' -> object s f -> on_hidden s f -> on_hidden s' f.
  Proof.
    intros [_ L U] O Q v J. apply U. apply Q. unfold f_vars in *. rewrite (rl_vars _ _ L) in J; auto.
  Qed.
  Lemma copy_tunable_coh P s f share : coh P s -> expo s f -> (share <> None -> on_hidden s f) -> ocoh P s (copy_tunable f share s).
  Proof.
    intros C X HH. unfold copy_tunable. apply ocoh_bind. apply ocoh_lift. apply cstep_refl; auto.
    intros c s' Q _. destruct (exp_copy (r_h s f)) as [c'| | | |] eqn:E; simpl in Q; try discriminate.
    injection Q as <- <-. assert (Hb : built c'). { eapply b_expcopy; eauto. apply C. }
    assert (ST : cstep P s (snd (alloc s c'))) by (apply alloc_coh; auto). apply exp_copy_group in E as [EG EX].
    cbn [alloc snd] in *. eapply ocoh_from. exact ST. apply add_tunable_coh. apply ST.
    - intros k [= <-]. split; simpl. lia. rewrite fupd_eq. auto.
    - intros k [= <-] NS v J. cbn [r_h] in J. rewrite fupd_eq in J. unfold f_vars in J. rewrite EG in J. apply (cs_un _ _ _ ST). apply HH; auto.
  Qed.
  Lemma insert_tunable_coh P s copy f share : coh P s -> expo s f -> (share <> None -> on_hidden s f) -> ocoh P s (insert_tunable copy f share s).
  Proof.
    intros C X HH. destruct copy. apply copy_tunable_coh; auto. apply add_tunable_coh; auto. intros k [= <-]. auto. intros k [= <-]. auto.
  Qed.
  Lemma absorb_tunable_coh P s copy l : coh P s -> (forall f, In f l -> expo s f) -> ocoh P s (absorb_tunable copy l s).
  Proof.
    intros C Hl. unfold absorb_tunable. apply ocoh_fold. apply cstep_refl; auto. intros f s' J ST. apply ocoh_catch.
    eapply ocoh_from. exact ST. apply insert_tunable_coh. apply ST. eapply expo_le. apply ST. auto. congruence.
  Qed.
  Lemma absorb_cluster_coh P s copy c : coh P s -> (forall f, In f c -> expo s f) -> (forall f, In f c -> on_hidden s f) -> ocoh P s (absorb_cluster copy c s).
  Proof.
    intros C Hc HH. destruct c as [|f c]; simpl; auto. apply ocoh_bind. apply insert_tunable_coh; auto. apply Hc. left; auto. congruence.
    intros _ s' _ ST. apply ocoh_fold; auto. intros k s2 J ST2. eapply ocoh_from. exact ST2. apply insert_tunable_coh. apply ST2.
    eapply expo_le. apply ST2. apply Hc. right; auto.
    intros _. eapply on_hidden_le. exact ST2. apply Hc. right; auto. apply HH. right; auto.
  Qed.
  Lemma absorb_clusters_coh P s copy cs : coh P s -> (forall c f, In c cs -> In f c -> expo s f) -> (forall c f, In c cs -> In f c -> on_hidden s f) ->
    ocoh P s (absorb_clusters copy cs s).
  Proof.
    intros C Hl HH. unfold absorb_clusters. apply ocoh_fold. apply cstep_refl; auto. intros c s' J ST. apply ocoh_catch.
    eapply ocoh_from. exact ST. apply absorb_cluster_coh. apply ST. intros f Jf. eapply expo_le. apply ST. eauto.
    intros f Jf. eapply on_hidden_le. exact ST. apply (Hl c); auto. eauto.
  Qed.

  (** {1 Gradient and calls on the graph} *)
  Lemma coh_keeps P s g : coh P s -> keeps (r_h s) (r_g s) g -> coh P (set_g s g).
  Proof.
    intros C K. apply coh_g; auto.
    - apply step_g. apply C. apply (kp_vars _ _ _ K). apply (kp_all _ _ _ K).
    - eapply keeps_inv; eauto. apply C.
    - intros p. eapply keeps_clean; eauto. apply C. auto.
  Qed.
  (** the graph of a coherent model with no evidence *)
  Lemma remove_all_coh P s e : coh P s -> env_ok e -> exists g, remove_all_evidences e (r_g s) = Ret tt g /\ coh True (set_g s g) /\
    (forall a, g_ev g a = None) /\ g_vars g = g_vars (r_g s) /\ g_all g = g_all (r_g s).
  Proof.
    intros C E. destruct (remove_all_ok (r_h s) (r_g s) (g_all (r_g s)) e (proj1 (ch_inv _ _ C)) E) as (g & Eg & C' & CS' & CL & V & A' & EV & _).
    exists g. splits; auto. constructor; auto.
    - apply step_g; auto. apply C.
    - split; auto. cbn [r_g set_g r_h]. rewrite A'. auto.
  Qed.
  Lemma no_evidence_clean g : (forall a, g_ev g a = None) -> clean (N:=N) g.
  Proof. intros E x y _. auto. Qed.

  Lemma rf_gradient_coh P s e it : coh P s -> env_ok e -> match rf_gradient e it s with Ret _ s' | Thr s' => coh P s' | _ => True end.
  Proof.
    intros C E. unfold rf_gradient.
    assert (K : forall s1, coh P s1 -> match
      (do (_, s) <- on_g (propagate (r_h (set_g s1 (reset_belief (r_g s1)))) e SUM) (set_g s1 (reset_belief (r_g s1))) ;;
       match g_pool (r_g s) with
       | None => Thr s
       | Some _ => lift (let* samples := iter_samples it in
              rmap (fun t => let* a := tuner_sum (base_alpha (r_h s) samples) t in
                             let* b := tuner_sum (base_beta (r_h s) e (r_g s)) t in Ok (a - b)%num) (r_tuners s)) s
       end) with Ret _ s' | Thr s' => coh P s' | _ => True end).
    { intros s1 C1. set (s2 := set_g s1 (reset_belief (r_g s1))).
      assert (C2 : coh P s2).
      { apply coh_g; auto. apply step_g; auto. apply C1. pose proof (ch_inv _ _ C1) as [X Y].
        split. eapply core_same; [| | |exact X]; auto. eapply clus_same; [| | | |exact Y]; auto. exact (ch_clean _ _ C1). }
      pose proof (propagate_keeps (r_h s2) (g_all (r_g s2)) e SUM (r_g s2) E (proj1 (ch_inv _ _ C2)) (proj2 (ch_inv _ _ C2))) as KP.
      unfold on_g. destruct (propagate (r_h s2) e SUM (r_g s2)) as [[] g|g| | |]; cbn [obind okeeps] in *; auto.
      2:{ apply coh_keeps; auto. }
      assert (C3 : coh P (set_g s2 g)) by (apply coh_keeps; auto).
      destruct (g_pool (r_g (set_g s2 g))); auto. match goal with |- match lift ?r _ with _ => _ end => destruct r; simpl; auto end. }
    destruct (existsb _ _); [|apply K; auto].
    destruct (remove_all_coh P s e C E) as (g & Eg & Cg & _). unfold on_g at 1. rewrite Eg. cbn [obind]. apply K.
    destruct Cg as [c1 c2 c3]. constructor; auto.
  Qed.

  Theorem rcall_coh P e op s : coh P s -> rok op s -> careful P s op -> env_ok e ->
    match rcall e op s with Ret _ s' | Thr s' => coh P s' | _ => True end.
  Proof.
    intros C Hop G E.
    assert (W : forall B (o : out rst B), ocoh P s o -> match o with Ret _ s' | Thr s' => coh P s' | _ => True end).
    { intros B o Q. destruct o; simpl in *; auto; apply Q. }
    destruct op; cbn [rcall rok careful] in *;
      lazymatch goal with |- context [weights_gradient] => idtac | _ => try (apply W, ocoh_map) end.
    - apply alloc_coh; auto.
    - apply add_const_coh; auto. intros f ->. auto.
    - apply copy_const_coh; auto.
    - apply absorb_const_coh; auto.
    - apply add_tunable_coh; auto. intros f ->. auto. intros f -> NS. destruct share; [auto|congruence].
    - apply copy_tunable_coh; auto. intros NS. destruct share; [auto|congruence].
    - apply absorb_tunable_coh; auto.
    - apply absorb_clusters_coh; auto.
    - apply set_weights_coh; auto.
    - apply set_all_ones_coh; auto.
    - unfold weights_gradient, scoped.
      assert (K : forall s1 n, coh P s1 -> coh P (set_g s1 (set_pool (r_g s1) n))).
      { intros s1 n0 C1. apply coh_g; auto. apply step_g; auto. apply C1. pose proof (ch_inv _ _ C1) as [X Y].
        split. eapply core_same; [| | |exact X]; auto. eapply clus_same; [| | | |exact Y]; auto. exact (ch_clean _ _ C1). }
      assert (K1 : match on_g (set_pool_size threads) s with Ret _ s' | Thr s' => coh P s' | _ => True end).
      { unfold on_g, set_pool_size. destruct (g_pool (r_g s)) as [p|]; auto. destruct (threads =? p).
        - assert (Q : set_g s (r_g s) = s) by (destruct s; auto). rewrite Q. auto.
        - destruct (threads =? 0); apply K; auto. }
      destruct (on_g (set_pool_size threads) s) as [[] s1|s1| | |]; cbn [obind rmapo]; auto.
      pose proof (rf_gradient_coh P s1 e it K1 E) as Q. destruct (rf_gradient e it s1); cbn [rmapo obind] in *; try (apply K); auto.
    - destruct G as [G1 G2]. pose proof (call_refines (r_h s) (coh_solid P s C) (r_g s) (spec_of (r_g s)) e op (ch_inv _ _ C) (coh_abs P s C) E G1) as CR.
      pose proof (rcall_step e (RGraph op) s (ch_r _ _ C) Hop) as ST. cbn [rcall] in ST. unfold on_g in *.
      destruct (sp_step (fvars (r_h s)) (spec_of (r_g s)) op) as [r|].
      + destruct CR as (g & Eg & I & AB & CL). rewrite Eg in *.
        assert (Q : coh P (set_g s g)).
        { apply coh_g; auto. destruct (fst r); exact ST. intros p. apply CL; auto. apply C; auto. }
        destruct (fst r); exact Q.
      + destruct (call (r_h s) e op (r_g s)); cbn [okeeps] in *; auto; apply coh_keeps; auto.
  Qed.

  Lemma coh_empty P h top : (forall f, built (h f)) -> coh P (r_empty h top).
  Proof.
    intros Hb. constructor. apply rinv_empty; auto. apply inv_empty. intros _. apply no_evidence_clean. reflexivity.
  Qed.
  Theorem rreach_coh P h top s : (forall f, built (h f)) -> rreach h top (careful P) s -> coh P s.
  Proof.
    intros Hb R. induction R as [|s e op a s' R IH Hop G E Q|s e op s' R IH Hop G E Q].
    - apply coh_empty; auto.
    - pose proof (rcall_coh P e op s IH Hop G E) as X. rewrite Q in X. auto.
    - pose proof (rcall_coh P e op s IH Hop G E) as X. rewrite Q in X. auto.
  Qed.
End Coherent.
