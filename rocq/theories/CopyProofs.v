(** Copies of random fields: the insertions of the factors of a model in another
    one *)
From Coq Require Import String List Arith Bool Lia Permutation.
From Verif Require Import Res Num Categoric Combs Func FuncProofs GroupProofs FactorProofs FactorApi Special SpecialProofs
  Graph GraphLemmas Clusters Belief Query Gibbs GraphInv EvidInv BeliefInv GraphSpec Hist BeliefSpec BeliefHist Train TrainHist Coherent CRF CRFHist TrainInv FieldHist Plan.
Import ListNotations.
Open Scope nat_scope.

Section Copy.
  Context {N : num} (OK : num_ok N).
  Notation gst := (gst (N:=N)).
  Notation rst := (rst (N:=N)).
  Implicit Types s : rst.
  Variable P0 : Prop.
  Variable src : rst.
  Hypothesis CS : coh P0 src.
  Variable copy : bool.

  (** {1 The factors of the source} *)
  Lemma src_nd : NoDup (map vkey (g_vars (r_g src))).
  Proof. apply (ch_inv _ _ CS). Qed.
  Lemma src_shape f : In f (g_all (r_g src)) ->
    (exists v, f_vars (r_h src f) = [v] /\ In v (g_vars (r_g src))) \/
    (exists x y, f_vars (r_h src f) = [x; y] /\ In x (g_vars (r_g src)) /\ In y (g_vars (r_g src))).
  Proof.
    intros J. destruct (co_fac _ _ _ (proj1 (ch_inv _ _ CS)) f J) as [(v & a & E & V & _)|(x & y & a & b & c & E & Vx & Vy & _)].
    - left. exists v. split; auto. eapply nth_error_In; eauto.
    - right. exists x, y. split; auto. split; eapply nth_error_In; eauto.
  Qed.
  Lemma src_vars_in f v : In f (g_all (r_g src)) -> In v (f_vars (r_h src f)) -> In v (g_vars (r_g src)).
  Proof.
    intros J Jv. destruct (src_shape f J) as [(w & E & I)|(x & y & E & I & I')]; rewrite E in Jv.
    destruct Jv as [<-|[]]; auto. destruct Jv as [<-|[<-|[]]]; auto.
  Qed.
  (** at most one factor joins two variables *)
  Lemma src_pair f g x y : In f (g_all (r_g src)) -> In g (g_all (r_g src)) -> f_vars (r_h src f) = [x; y] ->
    f_vars (r_h src g) = [x; y] \/ f_vars (r_h src g) = [y; x] -> f = g.
  Proof.
    intros Jf Jg Ef Eg. pose proof (proj1 (ch_inv _ _ CS)) as C.
    assert (IN : forall a b v, var_at (r_g src) a v -> var_at (r_g src) b v -> a = b).
    { intros a b v A B. eapply (var_at_inj (r_g src) a b v v); auto. apply src_nd. }
    destruct (co_fac _ _ _ C f Jf) as [(v & a & E & _)|(x1 & y1 & a & b & c & E & Va & Vb & L & Q)].
    { unfold fvars in E. rewrite Ef in E. discriminate. }
    unfold fvars in E. rewrite Ef in E. injection E as <- <-.
    destruct (co_fac _ _ _ C g Jg) as [(v & a' & E & _)|(x1 & y1 & a' & b' & c' & E & Va' & Vb' & L' & Q')].
    { unfold fvars in E. destruct Eg as [Eg|Eg]; rewrite Eg in E; discriminate. }
    unfold fvars in E.
    assert (SY : exists c'', (act (r_g src) a b = Some c'' \/ dis (r_g src) a b = Some c'') /\ c_fac c'' = g).
    { destruct Eg as [Eg|Eg]; rewrite Eg in E; injection E as <- <-.
      - rewrite (IN _ _ _ Va Va'), (IN _ _ _ Vb Vb'). eauto.
      - rewrite (IN _ _ _ Va Vb'), (IN _ _ _ Vb Va'). destruct L' as [L'|L'].
        + destruct (co_act_sym _ _ _ C _ _ _ L') as (c2 & A & F). exists c2. split; auto. congruence.
        + destruct (co_dis_sym _ _ _ C _ _ _ L') as (c2 & A & F). exists c2. split; auto. congruence. }
    destruct SY as (c'' & L2 & Q2). destruct L as [L|L], L2 as [L2|L2]; try congruence.
    - exfalso. eapply (co_excl _ _ _ C); eauto.
    - exfalso. eapply (co_excl _ _ _ C); eauto.
  Qed.
  (** {1 Invariant} *)

  (** [k] is the object that stands for the factor [f] of the source *)
  Definition mark (f k : nat) : Prop := if copy then r_top src <= k else k = f.
  Definition twin := Plan.twin (r_h src) mark.
  Definition ttwin := Plan.ttwin (r_h src) mark.
  Definition part := Plan.part (r_h src) (r_top src) (r_h src) (g_all (r_g src)) mark.
  Lemma src_built f : built (r_h src f).
  Proof. apply CS. Qed.

  Lemma part_start : part [] (r_empty (r_h src) (r_top src)).
  Proof. apply Plan.part_start. exact src_built. Qed.
  Lemma ttwin_ext s s' f k : r_h s' k = r_h s k -> ttwin s f k -> ttwin s' f k.
  Proof. apply Plan.ttwin_ext. Qed.
  Notation add_const_part := (Plan.add_const_part (r_h src) (r_top src) (r_h src) (g_vars (r_g src)) (g_all (r_g src)) src_nd src_shape src_pair mark).
  Notation add_own := (Plan.add_own (r_h src) (r_top src) (r_h src) (g_vars (r_g src)) (g_all (r_g src)) src_nd src_shape src_pair mark).
  Notation add_share := (Plan.add_share (r_h src) (r_top src) (r_h src) (g_vars (r_g src)) (g_all (r_g src)) src_nd src_shape src_pair mark).

  (** with no copies, the factors of the copy are those of the source *)
  Lemma share_in done s k : copy = false -> part done s -> In k (g_all (r_g s)) -> In k done.
  Proof. intros EC PA J. destruct (F2_in_r _ _ _ (pa_facs _ _ _ _ _ _ _ PA) k J) as (f & Jf & _ & _ & Q). unfold mark in Q. rewrite EC in Q. congruence. Qed.
  Lemma src_top f : In f (g_all (r_g src)) -> f < r_top src.
  Proof. apply (ri_top _ (ch_r _ _ CS)). Qed.

  (** {1 Const factors} *)
  Lemma const_part done s f : part done s -> In f (g_all (r_g src)) -> ~ In f done ->
    exists s', (if copy then copy_const f s else add_const (Some f) s) = Ret tt s' /\ part (done ++ [f]) s' /\
      r_tuners s' = r_tuners s /\ grow s s'.
  Proof.
    intros PA J NJ. destruct copy eqn:EC.
    - destruct (factor_clone_transformed_ok (r_h src f)) as (c & E & W & G & X & IM). { apply built_solid. apply CS. }
      assert (ES : r_h s f = r_h src f). { apply (pa_heap _ _ _ _ _ _ _ PA). apply src_top; auto. }
      unfold copy_const. rewrite ES, E. cbn [lift obind].
      assert (BC : built c) by (eapply b_clone; eauto; apply CS).
      destruct (alloc_part _ _ _ _ _ done s c PA BC) as (PT & GT & HT & LT & NT).
      destruct (add_const_part done (snd (alloc s c)) f (r_top s) PT J NJ) as (s' & E' & P' & T' & G'); auto.
      + unfold Plan.twin. rewrite HT. split; auto. split.
        * intros c0 V. unfold fval at 1, transform. rewrite X. apply IM; auto.
        * unfold mark. rewrite EC. apply (pa_top _ _ _ _ _ _ _ PA).
      + exists s'. split; auto. split; auto. split; auto. eapply grow_trans; eauto.
    - destruct (add_const_part done s f f PA J NJ) as (s' & E' & P' & T' & G'); eauto.
      + unfold Plan.twin, mark. rewrite EC, (pa_heap _ _ _ _ _ _ _ PA) by (apply src_top; auto). auto.
      + pose proof (src_top f J). pose proof (pa_top _ _ _ _ _ _ _ PA). lia.
      + intros Q. apply NJ. eapply share_in; eauto.
  Qed.
  Lemma absorb_const_part l : forall done s, part done s -> incl l (g_all (r_g src)) -> NoDup l -> (forall f, In f l -> ~ In f done) ->
    exists s', absorb_const l copy s = Ret tt s' /\ part (done ++ l) s' /\ r_tuners s' = r_tuners s /\ grow s s'.
  Proof.
    induction l as [|f l IH]; intros done s PA Il ND D.
    - exists s. rewrite app_nil_r. split; [reflexivity|]. split; auto. split; auto. apply grow_refl.
    - inversion ND; subst. unfold absorb_const. cbn [ofold].
      destruct (const_part done s f PA) as (s1 & E1 & P1 & T1 & G1). apply Il; simpl; auto. apply D; simpl; auto.
      rewrite E1. cbn [try_catch obind]. destruct (IH (done ++ [f]) s1 P1) as (s2 & E2 & P2 & T2 & G2); auto.
      + intros x Jx. apply Il. right; auto.
      + intros x Jx Jd. apply in_app_or in Jd as [Jd|[<-|[]]]; auto. apply (D x); simpl; auto.
      + exists s2. unfold absorb_const in E2. rewrite E2. split; auto. rewrite <- app_assoc in P2. split; auto. split. congruence. eapply grow_trans; eauto.
  Qed.

  (** {1 Tunable factors} *)
  Definition tunable f : Prop := In f (concat (tunable_clusters src)).
  Lemma tunable_all f : tunable f -> In f (g_all (r_g src)).
  Proof. intros J. apply (ri_in _ (ch_r _ _ CS)). apply in_or_app. right. apply (ri_tun _ (ch_r _ _ CS)). auto. Qed.
  Lemma tunable_exp f : tunable f -> exists w, f_exp (r_h src f) = Some w.
  Proof. intros J. pose proof (ri_exp _ (ch_r _ _ CS) f J) as Q. unfold weight_of in Q. destruct (f_exp (r_h src f)); eauto. congruence. Qed.

  (** the object inserted for a tunable factor *)
  Lemma tunable_plan f : tunable f -> Plan.tunable (r_h src) (g_all (r_g src)) f.
  Proof. intros J. split. apply tunable_all; auto. apply tunable_exp; auto. Qed.
  Lemma tun_ready done s f share : part done s -> tunable f -> ~ In f done ->
    exists t k, insert_tunable copy f share s = add_tunable (Some k) share t /\ part done t /\ r_tuners t = r_tuners s /\ grow s t /\
      ttwin t f k /\ k < r_top t /\ ~ In k (g_all (r_g t)).
  Proof.
    intros PA J NJ. pose proof (tunable_all f J) as JA.
    assert (ES : r_h s f = r_h src f). { apply (pa_heap _ _ _ _ _ _ _ PA). apply src_top; auto. }
    unfold insert_tunable. destruct copy eqn:EC.
    - destruct (tunable_exp f J) as (w & Ew). assert (W : wf_func (r_h src f)) by (apply built_solid; apply CS).
      destruct (exp_ctor_ok (r_h src f) w W) as (c & E & W' & G & X & IM).
      assert (E' : exp_copy (r_h src f) = Ok c). { unfold exp_copy, exp_get_weight. rewrite Ew. exact E. }
      assert (BC : built c) by (eapply b_expcopy; eauto; apply CS).
      destruct (alloc_part _ _ _ _ _ done s c PA BC) as (PT & GT & HT & LT & NT).
      exists (snd (alloc s c)), (r_top s). split. { unfold copy_tunable. rewrite ES, E'. reflexivity. }
      split; auto. split; auto. split; auto.
      split. { unfold ttwin, Plan.ttwin, Plan.twin. rewrite HT. split; [split; [|split]|split]; auto.
        - intros c0 V. unfold fval, transform. rewrite X, Ew, IM; auto.
        - unfold mark. rewrite EC. apply (pa_top _ _ _ _ _ _ _ PA).
        - congruence. }
      auto.
    - exists s, f. split; auto. split; auto. split; auto. split. apply grow_refl.
      split. { unfold ttwin, Plan.ttwin, Plan.twin, mark. rewrite ES, EC. auto. }
      split. { pose proof (src_top f JA). pose proof (pa_top _ _ _ _ _ _ _ PA). lia. }
      intros Q. apply NJ. eapply share_in; eauto.
  Qed.

  (** {1 Clusters} *)

  (** the clusters of the copy are made of the objects that stand for those of the source *)
  Definition clustered s (cs : list (list nat)) : Prop := Forall2 (Forall2 (ttwin s)) cs (tunable_clusters s).
  Lemma ttwin_grow s s' : rinv s -> grow s s' -> forall f k, In k (concat (tunable_clusters s)) -> ttwin s f k -> ttwin s' f k.
  Proof.
    intros I [_ G] f k J. apply ttwin_ext. apply G. apply (ri_top _ I). apply (ri_in _ I). apply in_or_app. right. apply (ri_tun _ I). auto.
  Qed.
  Lemma clustered_grow s s' cs ds : rinv s -> grow s s' -> incl ds (tunable_clusters s) -> Forall2 (Forall2 (ttwin s)) cs ds -> Forall2 (Forall2 (ttwin s')) cs ds.
  Proof.
    intros I G Il F. eapply F2_mono; [|exact F]. intros c d _ Jd Q. eapply F2_mono; [|exact Q]. intros f k _ Jk.
    apply (ttwin_grow s s' I G). apply in_concat. eauto.
  Qed.
  (** no cluster before has a factor with the variables of [f] *)
  Definition unclaimed (cs : list (list nat)) (f : nat) : Prop :=
    forall c g, In c cs -> In g c -> vset_eqb (g_set (f_group (r_h src g))) (g_set (f_group (r_h src f))) = false.

  Lemma tests_before s cs ds f : Forall2 (Forall2 (ttwin s)) cs ds -> unclaimed cs f -> forall d, In d ds -> tests s (g_set (f_group (r_h src f))) d = false.
  Proof.
    intros F U d Jd. destruct (F2_in_r _ _ _ F d Jd) as (c & Jc & Q). apply existsb_all_false. intros k Jk.
    destruct (F2_in_r _ _ _ Q k Jk) as (g & Jg & (TG & _) & _). rewrite TG. eapply U; eauto.
  Qed.
  Lemma vset_eqb_refl G : wf_group G -> vset_eqb (g_set G) (g_set G) = true.
  Proof.
    intros [W1 W2]. assert (ND : NoDup (map vkey (g_set G))). { eapply Permutation_NoDup; [|exact W1]. symmetry. apply Permutation_map. auto. }
    apply vset_eqb_perm; auto.
  Qed.

  Lemma rest_part old f w r : forall done s p p' k,
    part done s -> (forall g, In g (f :: p ++ r) -> f_exp (r_h src g) = Some w) -> (forall g, In g r -> tunable g /\ ~ In g done) -> NoDup r -> tunable f ->
    unclaimed old f -> (exists ds, tunable_clusters s = ds ++ [k :: p'] /\ Forall2 (Forall2 (ttwin s)) old ds) -> Forall2 (ttwin s) (f :: p) (k :: p') ->
    exists s', ofold (fun g s => insert_tunable copy g (Some (g_set (f_group (r_h src f)))) s) r s = Ret tt s' /\ part (done ++ r) s' /\
      clustered s' (old ++ [f :: p ++ r]) /\ grow s s'.
  Proof.
    induction r as [|g r IH]; intros done s p p' k PA WS TN ND Jf UN (ds & EC & FO) FP.
    - exists s. split; auto. rewrite !app_nil_r. split; auto. split; [|apply grow_refl]. unfold clustered. rewrite EC. apply Forall2_app; auto.
    - cbn [ofold]. inversion ND as [|? ? NI ND']; subst. destruct (TN g (or_introl eq_refl)) as [Jg Ng].
      destruct (tun_ready done s g (Some (g_set (f_group (r_h src f)))) PA Jg Ng) as (t & j & E & PT & ET & GT & TT & Lj & NJ).
      assert (ECt : tunable_clusters t = ds ++ [k :: p']) by (unfold tunable_clusters in *; rewrite ET; auto).
      pose proof (ch_r _ _ (pa_coh _ _ _ _ _ _ _ PA)) as RI.
      assert (FOt : Forall2 (Forall2 (ttwin t)) old ds). { eapply clustered_grow; eauto. rewrite EC. intros x Jx. apply in_or_app; auto. }
      assert (FPt : Forall2 (ttwin t) (f :: p) (k :: p')).
      { eapply F2_mono; [|exact FP]. intros a b _ Jb. apply (ttwin_grow s t RI GT). rewrite EC, concat_app. apply in_or_app. right. cbn [concat]. rewrite app_nil_r. auto. }
      destruct (add_share done t g j (g_set (f_group (r_h src f))) ds (k :: p') [] w) as (s1 & E1 & P1 & EC1 & G1 & H1); auto using tunable_plan.
      + eapply tests_before; eauto.
      + inversion FPt as [|? ? ? ? ((TG & _) & _) ?]; subst. unfold tests. cbn [existsb]. rewrite TG, vset_eqb_refl; auto.
        apply (built_solid (r_h src f)). apply CS.
      + intros i Ji. destruct (F2_in_r _ _ _ FPt i Ji) as (a & Ja & _ & -> & _). apply WS. rewrite app_comm_cons. apply in_or_app; auto.
      + apply WS. right. apply in_or_app. right. simpl; auto.
      + rewrite E, E1. cbn [obind].
        assert (TX : forall a b, ttwin t a b -> ttwin s1 a b) by (intros a b; apply ttwin_ext; auto).
        destruct (IH (done ++ [g]) s1 (p ++ [g]) (p' ++ [j]) k P1) as (s2 & E2 & P2 & C2 & G2); auto.
        * intros x Jx. apply WS. rewrite <- app_assoc in Jx. auto.
        * intros x Jx. destruct (TN x (or_intror Jx)) as [Tx Nx]. split; auto. intros Q. apply in_app_or in Q as [Q|[<-|[]]]; auto.
        * exists ds. split; auto. eapply F2_mono; [|exact FOt]. intros c d _ _. apply F2_mono. intros; auto.
        * rewrite !app_comm_cons. apply Forall2_app. eapply F2_mono; [|exact FPt]; intros; auto. constructor; auto.
        * exists s2. rewrite E2. split; auto. rewrite <- app_assoc in P2. split; auto. rewrite <- app_assoc in C2. split; auto.
          eapply grow_trans; [exact GT|]. eapply grow_trans; eauto.
  Qed.

  Lemma cluster_part done s old c : part done s -> clustered s old -> In c (tunable_clusters src) ->
    (forall f, In f c -> ~ In f done) -> (length c > 1 -> forall f r, c = f :: r -> unclaimed old f) ->
    exists s', absorb_cluster copy c s = Ret tt s' /\ part (done ++ c) s' /\ clustered s' (old ++ [c]) /\ grow s s'.
  Proof.
    intros PA CL Jc ND UN. pose proof (ch_r _ _ CS) as RS. destruct c as [|f r]. { exfalso. apply (ri_ne _ RS _ Jc). auto. }
    assert (TU : forall g, In g (f :: r) -> tunable g) by (intros g Jg; apply in_concat; eauto).
    assert (NDc : NoDup (f :: r)).
    { pose proof (ri_cls _ RS) as Q. apply in_split in Jc as (a & b & EQ). rewrite EQ, concat_app in Q. cbn [concat] in Q.
      apply NoDup_app_parts in Q as (_ & Q). apply NoDup_app_parts in Q. apply Q. }
    inversion NDc; subst.
    destruct (tunable_exp f (TU f (or_introl eq_refl))) as (w & Ew).
    assert (WS : forall g, In g (f :: r) -> f_exp (r_h src g) = Some w).
    { intros g Jg. rewrite <- Ew. apply (ri_eq _ RS _ _ _ Jc); simpl; auto. }
    unfold absorb_cluster. destruct (tun_ready done s f None PA (TU f (or_introl eq_refl)) (ND f (or_introl eq_refl))) as (t & k & E & PT & ET & GT & TT & Lk & NK).
    destruct (add_own done t f k PT (tunable_plan f (TU f (or_introl eq_refl))) (ND f (or_introl eq_refl)) TT Lk NK) as (s1 & E1 & P1 & EC1 & G1).
    assert (ES : r_h s f = r_h src f). { apply (pa_heap _ _ _ _ _ _ _ PA). apply src_top. apply tunable_all. apply TU. simpl; auto. }
    rewrite ES, E, E1. cbn [obind].
    assert (G0 : grow s s1) by (eapply grow_trans; eauto).
    assert (F1 : Forall2 (Forall2 (ttwin s1)) old (tunable_clusters s)).
    { eapply (clustered_grow s s1); eauto. apply PA. intros x; auto. }
    assert (EC : tunable_clusters t = tunable_clusters s) by (unfold tunable_clusters; rewrite ET; auto). rewrite EC in EC1.
    assert (TF : ttwin s1 f k). { eapply ttwin_ext; [|exact TT]. apply G1; auto. }
    destruct r as [|g r].
    - exists s1. split; auto. split; auto. split; auto. unfold clustered. rewrite EC1. apply Forall2_app; auto.
    - destruct (rest_part old f w (g :: r) (done ++ [f]) s1 [] [] k P1) as (s2 & E2 & P2 & C2 & G2); auto.
      + intros x Jx. split. apply TU; right; auto. intros Q. apply in_app_or in Q as [Q|[<-|[]]]; [|auto]. apply (ND x); auto. right; auto.
      + apply TU; left; auto.
      + eapply UN; eauto. simpl; lia.
      + eauto.
      + exists s2. split; auto. rewrite <- app_assoc in P2. split; auto. split; auto. eapply grow_trans; eauto.
  Qed.

  (** a sharing group is recognised by the variables of the first factor of a
      cluster: no cluster before has a factor on the same variables *)
  Definition unambiguous : Prop := forall old f r rest, tunable_clusters src = old ++ (f :: r) :: rest -> r <> [] -> unclaimed old f.

  Lemma clusters_part rest : forall done old s, part done s -> clustered s old -> tunable_clusters src = old ++ rest -> unambiguous ->
    (forall f, In f (concat rest) -> ~ In f done) ->
    exists s', absorb_clusters copy rest s = Ret tt s' /\ part (done ++ concat rest) s' /\ clustered s' (tunable_clusters src) /\ grow s s'.
  Proof.
    induction rest as [|c rest IH]; intros done old s PA CL EQ UA ND.
    - exists s. cbn [concat]. rewrite app_nil_r in *. split; [reflexivity|]. split; auto. split. rewrite EQ. auto. apply grow_refl.
    - unfold absorb_clusters. cbn [ofold].
      destruct (cluster_part done s old c PA CL) as (s1 & E1 & P1 & C1 & G1).
      + rewrite EQ. apply in_or_app; simpl; auto.
      + intros f Jf. apply ND. simpl. apply in_or_app; auto.
      + intros Lc f r ->. eapply UA; eauto. intros ->. simpl in Lc. lia.
      + rewrite E1. cbn [try_catch obind]. pose proof (ri_cls _ (ch_r _ _ CS)) as NC. rewrite EQ, concat_app in NC. cbn [concat] in NC.
        destruct (IH (done ++ c) (old ++ [c]) s1 P1 C1) as (s2 & E2 & P2 & C2 & G2); auto.
        * rewrite <- app_assoc. auto.
        * intros f Jf Q. apply in_app_or in Q as [Q|Q]. apply (ND f); auto. simpl. apply in_or_app; auto.
          apply NoDup_app_parts in NC as (_ & NC). eapply NoDup_split_app; eauto.
        * exists s2. unfold absorb_clusters in E2. rewrite E2. split; auto. cbn [concat]. rewrite app_assoc. split; auto. split; auto. eapply grow_trans; eauto.
  Qed.
End Copy.

(** {1 Evidences} *)
Section Evidences.
  Context {N : num} (OK : num_ok N).
  Notation gst := (gst (N:=N)).
  Notation rst := (rst (N:=N)).
  Implicit Types s : rst.
  Variable P0 : Prop.
  Variable src : rst.
  Hypothesis CS : coh P0 src.
  Variable copy : bool.

  Definition give_evidences (e : env) (l : list nat) s : out rst unit :=
    ofold (fun a s =>
             do (v, s) <- lift (node_var (r_g src) a) s ;;
             match g_ev (r_g src) a with
             | None => Undef
             | Some k => on_g (fun g => set_evidence (r_h s) e g v k) s
             end) l s.
  Lemma give_evidences_ok e l : env_ok e -> forall D s, coh True s -> (forall v, In v (g_vars (r_g src)) -> In v (g_vars (r_g s))) ->
    (forall a, In a l -> g_ev (r_g src) a <> None) ->
    (forall a v, var_at (r_g src) a v -> sp_ev (contents s) (vkey v) = if mem a D then g_ev (r_g src) a else None) ->
    exists g, give_evidences e l s = Ret tt (set_g s g) /\ (forall h top, rreach h top alert s -> rreach h top alert (set_g s g)) /\ coh True (set_g s g) /\
      g_vars g = g_vars (r_g s) /\ g_all g = g_all (r_g s) /\
      forall a v, var_at (r_g src) a v -> sp_ev (contents (set_g s g)) (vkey v) = if mem a (D ++ l) then g_ev (r_g src) a else None.
  Proof.
    intros E. induction l as [|a l IH]; intros D s C KN OB EV.
    - exists (r_g s). assert (Q : set_g s (r_g s) = s) by (destruct s; auto). rewrite Q, app_nil_r. split; [reflexivity|]. auto.
    - unfold give_evidences. cbn [ofold]. destruct (g_ev (r_g src) a) as [k|] eqn:Ek; [|exfalso; apply (OB a); simpl; auto].
      pose proof (proj1 (ch_inv _ _ CS)) as CO. destruct (co_ev _ _ _ CO a k Ek) as (v & Va & Lk).
      rewrite (node_var_ok _ _ _ Va). cbn [lift obind].
      destruct (set_does (r_h s) (coh_solid _ _ C) (r_g s) (contents s) e v k (ch_inv _ _ C) (coh_abs _ _ C) E) as (g & Eg & IV & AB & CL).
      assert (KNv : sp_known (contents s) v = true). { apply sp_known_in. apply in_map. apply KN. eapply nth_error_In; eauto. }
      unfold sp_set_ev in Eg, AB. apply Nat.ltb_lt in Lk. rewrite Lk, KNv in Eg, AB. cbn [andb fst snd] in Eg, AB.
      assert (EO : on_g (fun g => set_evidence (r_h s) e g v k) s = Ret tt (set_g s g)) by (unfold on_g; rewrite Eg; auto).
      rewrite EO. cbn [obind].
      assert (C1 : coh True (set_g s g)). { pose proof (set_ev_coh True s e v k C E) as Q. rewrite EO in Q. exact Q. }
      destruct (abs_same_spec _ _ _ AB (coh_abs _ _ C1)) as (_ & _ & SE).
      destruct (IH (D ++ [a]) (set_g s g) C1) as (g2 & E2 & R2 & C2 & V2 & A2 & EV2).
      + intros w Jw. cbn [r_g set_g]. rewrite (ab_vars _ _ AB). apply KN; auto.
      + intros b Jb. apply OB. right; auto.
      + intros b w Wb. unfold contents. rewrite SE. unfold sp_set. cbn [sp_ev]. unfold upd_ev.
        assert (M : mem b (D ++ [a]) = mem b D || (b =? a)).
        { unfold mem. rewrite existsb_app. simpl. rewrite orb_false_r. auto. }
        rewrite M. destruct (Nat.eqb_spec b a) as [->|NE].
        * assert (w = v) by (unfold var_at in *; congruence). subst w. cbn [vkey fst snd]. rewrite String.eqb_refl, Nat.eqb_refl. simpl.
          rewrite orb_true_r. auto.
        * rewrite orb_false_r. destruct (String.eqb (fst (vkey w)) (fst (vname v, vsize v)) && (snd (vkey w) =? snd (vname v, vsize v))) eqn:K.
          -- exfalso. apply NE. apply andb_true_iff in K as [K1 K2]. apply String.eqb_eq in K1. apply Nat.eqb_eq in K2.
             eapply (var_at_inj (r_g src) b a w v); eauto. apply CO. unfold vkey in *. simpl in *. congruence.
          -- apply EV; auto.
      + exists g2. unfold give_evidences in E2. rewrite E2. split; [reflexivity|]. split.
        { intros h top R. apply R2. eapply RR_ret with (e := e) (op := RGraph (OSet v k)); [exact R|reflexivity| |exact E|].
          - split; [split; [split; simpl; auto|intros n Q; discriminate Q]|exact Logic.I].
          - cbn [rcall]. unfold on_g, call, omap. rewrite Eg. cbn [obind]. reflexivity. }
        split; auto. rewrite <- app_assoc in EV2. cbn [r_g set_g] in V2, A2. split. { rewrite V2, (ab_vars _ _ AB). reflexivity. }
        split. { rewrite A2, (ab_all _ _ AB). reflexivity. } exact EV2.
  Qed.

  (** every variable of the source is a variable of one of its factors *)
  Definition no_orphans : Prop := forall v, In v (g_vars (r_g src)) -> exists f, In f (g_all (r_g src)) /\ In v (f_vars (r_h src f)).

  (** what a copy is, for any list of the factors *)
  Record copied (done : list nat) s : Prop := {
    cy_facs : Permutation done (g_all (r_g src)) /\ Forall2 (twin src copy s) done (g_all (r_g s));
    cy_vars : forall v, In v (g_vars (r_g s)) <-> In v (g_vars (r_g src));
    cy_ev : forall v, In v (g_vars (r_g src)) -> sp_evidence (contents s) v = sp_evidence (contents src) v;
    cy_heap : forall f, f < r_top src -> r_h s f = r_h src f;
    cy_coh : coh True s;
    cy_reach : rreach (r_h src) (r_top src) alert s
  }.

  Definition observed_nodes (e : env) : list nat := e_ord e (gsize (r_g src)) (keys (gsize (r_g src)) (g_ev (r_g src))).
  Lemma finish_copy e done s : env_ok e -> no_orphans -> part src copy done s -> Permutation done (g_all (r_g src)) ->
    rreach (r_h src) (r_top src) alert s ->
    exists s', give_evidences e (observed_nodes e) s = Ret tt s' /\ copied done s' /\ r_h s' = r_h s /\ r_tuners s' = r_tuners s.
  Proof.
    intros E NO PA PE R. pose proof (pa_coh _ _ _ _ _ _ _ PA) as C.
    assert (KN : forall v, In v (g_vars (r_g s)) <-> In v (g_vars (r_g src))).
    { intros v. rewrite (pa_vars _ _ _ _ _ _ _ PA). split.
      - intros (f & Jf & Jv). eapply src_vars_in; eauto. eapply Permutation_in; eauto.
      - intros Jv. destruct (NO v Jv) as (f & Jf & Q). exists f. split; auto. eapply Permutation_in; [symmetry; exact PE|auto]. }
    destruct (give_evidences_ok e (observed_nodes e) E [] s C) as (g & Q & RR & C' & V & A & EV).
    - intros v. apply KN.
    - intros a Ja. unfold observed_nodes in Ja. apply ord_In in Ja; auto. apply keys_In in Ja as (_ & k & ->). discriminate.
    - intros a v Va. cbn [mem existsb]. apply (unobserved_ev True s _ v C). eapply coh_abs; eauto. apply (pa_blank _ _ _ _ _ _ _ PA).
    - exists (set_g s g). split; auto. split; [|auto]. constructor.
      + cbn [r_g set_g]. rewrite A. split; auto. apply (pa_facs _ _ _ _ _ _ _ PA).
      + cbn [r_g set_g]. rewrite V. auto.
      + intros v Jv. apply In_nth_error in Jv as (a & Va). unfold sp_evidence. change (vname v, vsize v) with (vkey v).
        rewrite (EV a v Va). cbn [app]. pose proof (ab_ev _ _ (coh_abs _ _ CS) a v Va) as X. change (spec_of (r_g src)) with (contents src) in X. rewrite <- X.
        destruct (mem a (observed_nodes e)) eqn:M; auto. apply mem_false in M. destruct (g_ev (r_g src) a) eqn:G; auto. exfalso. apply M.
        unfold observed_nodes. apply ord_In; auto. apply keys_In. split; eauto. apply var_at_lt in Va. auto.
      + apply PA.
      + auto.
      + auto.
  Qed.

  (** the copy constructor of a graph: all the factors are constant *)
  Theorem graph_copy e : env_ok e -> no_orphans ->
    exists s' done, graph_absorb e src copy (r_empty (r_h src) (r_top src)) = Ret tt s' /\ copied done s' /\ tunable_clusters s' = [].
  Proof.
    intros E NO. pose proof (ch_r _ _ CS) as RS. set (l := e_ord e 0 (g_all (r_g src))).
    assert (PE : Permutation l (g_all (r_g src))) by (apply E).
    destruct (absorb_const_part P0 src CS copy l [] _ (part_start P0 src CS copy)) as (s1 & E1 & P1 & T1 & G1).
    - intros f. apply Permutation_in; auto.
    - eapply Permutation_NoDup; [symmetry; exact PE|apply RS].
    - intros f _ [].
    - cbn [app] in P1. assert (R1 : rreach (r_h src) (r_top src) alert s1).
      { eapply RR_ret with (e := e) (op := RAbsorbConst copy l); [constructor| |split; [split; simpl; auto|exact Logic.I]|exact E|].
        - intros f Jf. unfold object. cbn [r_top r_empty]. apply (ri_top _ RS). eapply Permutation_in; eauto.
        - cbn [rcall]. unfold runit, rmapo. rewrite E1. reflexivity. }
      destruct (finish_copy e l s1 E NO P1 PE R1) as (s2 & E2 & CY & H2 & T2).
      exists s2, l. split. { unfold graph_absorb. fold l. rewrite E1. cbn [obind]. exact E2. }
      split; auto. unfold tunable_clusters. rewrite T2, T1. reflexivity.
  Qed.

  (** the copy constructor of a random field. Every factor of the source is a
      constant one or is in a cluster. *)
  Theorem field_copy e : env_ok e -> no_orphans -> (forall f, In f (g_all (r_g src)) -> In f (r_const src ++ concat (tunable_clusters src))) ->
    unambiguous src ->
    exists s' done, rf_absorb e src copy (r_empty (r_h src) (r_top src)) = Ret tt s' /\ copied done s' /\
      clustered src copy s' (tunable_clusters src).
  Proof.
    intros E NO AL UA. pose proof (ch_r _ _ CS) as RS. set (l := e_ord e 0 (r_const src)).
    assert (PE : Permutation l (r_const src)) by (apply E).
    assert (ND : NoDup (r_const src ++ concat (tunable_clusters src))).
    { pose proof (ri_facs _ RS) as Q. apply NoDup_app_parts in Q as Q'. apply NoDup_app_intro; try apply Q'. apply (ri_cls _ RS).
      intros x Jx Jy. eapply NoDup_split_app; eauto. apply (ri_tun _ RS). auto. }
    assert (PD : Permutation (l ++ concat (tunable_clusters src)) (g_all (r_g src))).
    { etransitivity. apply Permutation_app_tail. exact PE. apply NoDup_Permutation; auto. apply RS.
      intros x. split; auto. intros J. apply (ri_in _ RS). apply in_app_or in J as [J|J]; apply in_or_app; auto. right. apply (ri_tun _ RS). auto. }
    destruct (absorb_const_part P0 src CS copy l [] _ (part_start P0 src CS copy)) as (s1 & E1 & P1 & T1 & G1).
    - intros f Jf. apply (Permutation_in _ PE) in Jf. apply (ri_in _ RS). apply in_or_app; auto.
    - eapply Permutation_NoDup; [symmetry; exact PE|exact (proj1 (NoDup_app_parts _ _ ND))].
    - intros f _ [].
    - cbn [app] in P1.
      assert (CL0 : clustered src copy s1 []). { unfold clustered, tunable_clusters. rewrite T1. constructor. }
      destruct (clusters_part P0 src CS copy (tunable_clusters src) l [] s1 P1 CL0 eq_refl UA) as (s2 & E2 & P2 & CL & G2).
      { intros f Jf Jl. apply (Permutation_in _ PE) in Jl. eapply NoDup_split_app; eauto. }
      assert (R1 : rreach (r_h src) (r_top src) alert s1).
      { eapply RR_ret with (e := e) (op := RAbsorbConst copy l); [constructor| |split; [split; simpl; auto|exact Logic.I]|exact E|].
        - intros f Jf. unfold object. cbn [r_top r_empty]. apply (ri_top _ RS). apply (ri_in _ RS). apply in_or_app. left. eapply Permutation_in; eauto.
        - cbn [rcall]. unfold runit, rmapo. rewrite E1. reflexivity. }
      assert (R2 : rreach (r_h src) (r_top src) alert s2).
      { eapply RR_ret with (e := e) (op := RAbsorbClusters copy (tunable_clusters src)); [exact R1| | |exact E|].
        - intros c f Jc Jf. assert (TU : tunable src f) by (apply in_concat; eauto). pose proof (src_top P0 src CS f (tunable_all P0 src CS f TU)) as Lf.
          split. pose proof (pa_top _ _ _ _ _ _ _ P1). lia. rewrite (pa_heap _ _ _ _ _ _ _ P1) by auto. destruct (tunable_exp P0 src CS f TU) as (w & ->). discriminate.
        - split; [|exact Logic.I]. split; [|exact Logic.I]. intros c f _ _ v _. apply (pa_blank _ _ _ _ _ _ _ P1).
        - cbn [rcall]. unfold runit, rmapo. rewrite E2. reflexivity. }
      destruct (finish_copy e (l ++ concat (tunable_clusters src)) s2 E NO P2 PD R2) as (s3 & E3 & CY & H3 & T3).
      exists s3, (l ++ concat (tunable_clusters src)). split. { unfold rf_absorb. fold l. rewrite E1. cbn [obind]. rewrite E2. cbn [obind]. exact E3. }
      split; auto. unfold clustered, tunable_clusters in *. rewrite T3. eapply F2_mono; [|exact CL]. intros c d _ _. apply F2_mono.
      intros f k _ _. apply ttwin_ext. rewrite H3. auto.
  Qed.
End Evidences.
