(** Properties C45 and C53 for conditional random fields: a conditional random field
    exported to a json, or to an xml, is read as a random field, from which it can be
    built again. *)
From Coq Require Import Ascii String List Arith ZArith Bool Lia Permutation Relations QArith Qcanon.
From Verif Require Import Res Num Categoric Combs Func FuncProofs GroupProofs FactorProofs FactorApi Special SpecialProofs
  Graph GraphLemmas Clusters Belief Query GraphInv EvidInv BeliefInv BigOp GraphSpec Hist P_Graph BeliefSpec Sums BeliefHist
  Rebuild Train TrainHist Coherent TrainInv P_Categoric P_Factor Demo BeliefDemo TrainDemo P_Train P_Gradient P_GradientDemo FieldHist P_Field Plan CopyProofs P_Copy
  CRF CRFHist P_CRF CRFInv P_CRFDemo CondCopy P_CondAnswers CondSafeSpec CondSafe P_CondSafe P_CondCopy
  IO TextSpec TextProofs Json JsonRead JsonProofs P_Json Xml XmlProofs P_Xml ImportSpec CompleteSpec P_Complete.
Import ListNotations.
Open Scope nat_scope.

Section Again.
  Context {N : num} (OK : num_ok N).
  Notation rst := (rst (N:=N)).
  Notation crf := (crf (N:=N)).
  Implicit Types s src : rst.
  Variable rnd : N -> N.

  Lemma f2_left {X Y} (R : X -> Y -> Prop) l m x : Forall2 R l m -> In x l -> exists y, In y m /\ R x y.
  Proof. induction 1 as [|a b l m H F IH]; intros J; [destruct J|destruct J as [<-|J]]. exists b. split; simpl; auto. destruct (IH J) as (y & Jy & Ry). exists y. split; simpl; auto. Qed.
  Lemma f2_right {X Y} (R : X -> Y -> Prop) l m y : Forall2 R l m -> In y m -> exists x, In x l /\ R x y.
  Proof. induction 1 as [|a b l m H F IH]; intros J; [destruct J|destruct J as [<-|J]]. exists a. split; simpl; auto. destruct (IH J) as (z & Jy & Ry). exists z. split; simpl; auto. Qed.
  Lemma f2_nth {X Y} (R : X -> Y -> Prop) l m i y : Forall2 R l m -> nth_error m i = Some y -> exists x, nth_error l i = Some x /\ R x y.
  Proof. intros F. revert i. induction F as [|a b l m H F IH]; intros [|i] E; cbn in E; try discriminate. injection E as <-. exists a. split; auto. apply IH in E. exact E. Qed.

  (** {1 What is read is again a model of which a conditional random field is made} *)
  Section Read.
    Variables (src s : rst) (rho : var -> var).
    Hypothesis CS : coh False src.
    Hypothesis C : coh False s.
    Hypothesis PR : printable src.
    Hypothesis RC : read_content rnd rho src s.
    Hypothesis CR : Forall2 (Forall2 (tuned_reads rnd rho (r_h src) (r_h s))) (tunable_clusters src) (tunable_clusters s).

    Lemma read_inj v w : In v (g_vars (r_g src)) -> In w (g_vars (r_g src)) -> rho v = rho w -> v = w.
    Proof. intros Jv Jw E. destruct RC as (RN & _). apply (name_inj _ (proj1 PR)); auto. rewrite <- (proj1 (RN v Jv)), <- (proj1 (RN w Jw)). congruence. Qed.
    Lemma read_var w : In w (g_vars (r_g s)) -> exists v, In v (g_vars (r_g src)) /\ w = rho v.
    Proof. intros J. destruct RC as (_ & PV & _). eapply Permutation_in in J; [|symmetry; exact PV]. apply in_map_iff in J as (v & <- & J). eauto. Qed.
    Lemma read_lone : no_lone_variable src -> no_lone_variable s.
    Proof.
      intros NL w J. destruct (read_var w J) as (v & Jv & ->). destruct (NL v Jv) as (f & Jf & Jvf). destruct RC as (_ & _ & _ & l & PL & F).
      destruct (f2_left _ _ _ f F) as (k & Jk & E & _). eapply Permutation_in; [exact PL|exact Jf]. exists k. split; auto. rewrite E. apply in_map; auto.
    Qed.
    Lemma read_names : distinct_names s.
    Proof.
      intros a b Ja Jb E. destruct (read_var a Ja) as (v & Jv & ->). destruct (read_var b Jb) as (w & Jw & ->). destruct RC as (RN & _). f_equal. apply (name_inj _ (proj1 PR)); auto.
      rewrite <- (proj1 (RN v Jv)), <- (proj1 (RN w Jw)). auto.
    Qed.
    Lemma read_seen v : In v (g_vars (r_g src)) -> (seen s (rho v) <-> seen src v).
    Proof. intros J. destruct RC as (_ & _ & EV & _). split; intros (k & Q); exists k; apply (EV v k J); auto. Qed.
    Lemma seen_known s' v : seen s' v -> In v (g_vars (r_g s')).
    Proof. intros (k & a & V & _). eapply nth_error_In; eauto. Qed.
    Lemma read_clusters_in c f : In c (tunable_clusters src) -> In f c -> In f (g_all (r_g src)).
    Proof. intros Jc Jf. pose proof (ch_r _ _ CS) as RS. apply (ri_in _ RS). apply in_or_app. right. apply (ri_tun _ RS). apply in_concat. eauto. Qed.
    Lemma read_unseen : ~ tunable_all_seen src -> ~ tunable_all_seen s.
    Proof.
      intros NT (d & k & Jd & Jk & Q). apply NT. destruct (f2_right _ _ _ d CR Jd) as (c & Jc & F). destruct (f2_right _ _ _ k F Jk) as (f & Jf & (E & _) & _).
      exists c, f. split; auto. split; auto. intros v Jv. apply read_seen. eapply (CopyProofs.src_vars_in False src CS f v); auto. eapply read_clusters_in; eauto. apply Q. rewrite E. apply in_map; auto.
    Qed.
    Lemma map_perm_inj l m : (forall v, In v l -> In v (g_vars (r_g src))) -> (forall v, In v m -> In v (g_vars (r_g src))) -> Permutation (map rho l) (map rho m) -> Permutation l m.
    Proof.
      revert m. induction l as [|a l IH]; intros m Kl Km P. apply Permutation_nil, map_eq_nil in P. subst; auto.
      assert (J : In (rho a) (map rho m)) by (eapply Permutation_in; [exact P|simpl; auto]). apply in_map_iff in J as (b & E & J). apply read_inj in E; [|apply Km; auto|apply Kl; simpl; auto]. subst b.
      apply in_split in J as (m1 & m2 & ->). apply Permutation_cons_app. apply IH. intros v J; apply Kl; simpl; auto. intros v J. apply Km. apply in_app_iff in J. apply in_app_iff. simpl. tauto.
      rewrite map_app in *. cbn [map] in P. eapply Permutation_cons_app_inv. exact P.
    Qed.
    Lemma read_clear : clear_sharing src -> clear_sharing s.
    Proof.
      intros CL i j ci cj f f' L E1 E2 g Jg P. destruct (f2_nth _ _ _ i ci CR E1) as (bi & B1 & F1). destruct (f2_nth _ _ _ j _ CR E2) as (bj & B2 & F2).
      inversion F2 as [|b0 ? r ? H0 F3]; subst. inversion F3 as [|b1 ? r' ? H1 F4]; subst. destruct (f2_right _ _ _ g F1 Jg) as (b & Jb & (Eg & _) & _). destruct H0 as ((Ef & _) & _).
      rewrite Eg, Ef in P. apply (CL i j bi r' b0 b1 L B1 B2 b Jb). apply map_perm_inj; auto; intros v Jv; eapply (CopyProofs.src_vars_in False src CS); eauto; eapply read_clusters_in; eauto.
      eapply nth_error_In; eauto. eapply nth_error_In; eauto. simpl; auto.
    Qed.
    (** {1 A model with the same contents as what is read} *)
    Lemma sizes_kept f k : In f (g_all (r_g src)) -> f_vars (r_h s k) = map rho (f_vars (r_h src f)) -> fsizes (r_h s k) = fsizes (r_h src f).
    Proof.
      intros J E. unfold fsizes, sizes_of. change (g_soup (f_group (r_h s k))) with (f_vars (r_h s k)). change (g_soup (f_group (r_h src f))) with (f_vars (r_h src f)). rewrite E, map_map. apply map_ext_in. intros v Jv.
      destruct RC as (RN & _). apply RN. eapply (CopyProofs.src_vars_in False src CS f v); auto.
    Qed.
    Lemma f2_compose {X Y Z} (R : X -> Y -> Prop) (R' : Y -> Z -> Prop) (T : X -> Z -> Prop) l m n : Forall2 R l m -> Forall2 R' m n -> (forall x y z, In x l -> R x y -> R' y z -> T x z) -> Forall2 T l n.
    Proof. intros F. revert n. induction F as [|a b l m H F IH]; intros n G K; inversion G; subst; constructor. eapply K; eauto. simpl; auto. apply IH; auto. intros; eapply K; eauto. simpl; auto. Qed.
    Lemma f2_reorder {X Y} (R : X -> Y -> Prop) l m m' : Forall2 R l m -> Permutation m m' -> exists l', Permutation l l' /\ Forall2 R l' m'.
    Proof.
      intros F P. revert l F. induction P; intros l0 F.
      - inversion F; subst. exists []. auto.
      - inversion F; subst. destruct (IHP _ H3) as (k & P' & F'). exists (x0 :: k). split; auto.
      - inversion F as [|? ? ? ? H1 F1]; subst. inversion F1; subst. eexists. split; [apply perm_swap|]. auto.
      - destruct (IHP1 _ F) as (l1 & P1' & F1). destruct (IHP2 _ F1) as (l2 & P2' & F2). exists l2. split; auto. eapply perm_trans; eauto.
    Qed.
    Lemma read_then u : same_content s u -> read_content rnd rho src u.
    Proof.
      intros (PV' & EV' & l' & PL' & F'). pose proof RC as (RN & PV & EV & l & PL & F). split; auto. split. eapply perm_trans; eauto. split.
      - intros v k J. rewrite EV'. apply EV; auto.
      - destruct (f2_reorder _ _ _ _ F PL') as (l2 & P2 & F2). exists l2. split. eapply perm_trans; eauto.
        eapply f2_compose; [exact F2|exact F'|]. intros f k z Jf (E1 & V1) (E2 & V2). split. congruence. intros c VC. rewrite V2. apply V1; auto.
        rewrite (sizes_kept f k); auto. eapply Permutation_in; [|exact Jf]. symmetry. eapply perm_trans; [exact PL|exact P2].
    Qed.
    Lemma clusters_then u : Forall2 (Forall2 (tuned_as (r_h s) (r_h u))) (tunable_clusters s) (tunable_clusters u) ->
      Forall2 (Forall2 (tuned_reads rnd rho (r_h src) (r_h u))) (tunable_clusters src) (tunable_clusters u).
    Proof.
      intros G. eapply f2_compose; [exact CR|exact G|]. intros c d z Jc F1 F2. eapply f2_compose; [exact F1|exact F2|]. intros f k y Jf ((E1 & V1) & W1 & I1) ((E2 & V2) & W2 & I2).
      assert (Z : fsizes (r_h s k) = fsizes (r_h src f)) by (apply sizes_kept; auto; eapply read_clusters_in; eauto).
      split. split. congruence. intros x VC. rewrite V2. apply V1; auto. rewrite Z; auto. split. congruence. intros x VC. rewrite I2. apply I1; auto. rewrite Z; auto.
    Qed.
  End Read.
End Again.

Section P.
  Context {N : num} (OK : num_ok N).
  Notation rst := (rst (N:=N)).
  Notation crf := (crf (N:=N)).
  Implicit Types s src : rst.
  (** [std::to_string] and [std::atof], as in C45 *)
  Variable fprint : N -> string.
  Variable atof : string -> N.
  Notation rnd := (fun x => atof (fprint x)).
  Hypothesis fprint_plain : forall x, plain (fprint x).
  Hypothesis rnd_zero : rnd n0 = n0.
  Hypothesis rnd_nonneg : forall x, (n0 <= x)%num -> (n0 <= rnd x)%num.

  (** every factor read is listed *)
  Lemma json_listed h top e tun next j s : (forall f, built (h f)) -> env_ok e -> import_json atof e tun next j (r_empty h top) = Ret tt s -> all_listed s.
  Proof.
    intros Hb E Q. destruct (C61_json atof h top (r_empty h top) e tun next j s Hb (RR_start _ _ _) E Q) as (_ & _ & _ & _ & _ & _ & _ & (ds & fs & _ & _ & LD & PM) & _).
    intros f J. eapply Permutation_in in J; [|exact PM]. change (In f fs) in J. destruct (f2_right _ _ _ f LD J) as (d & _ & LF).
    destruct (tun && d_tunable d)%bool eqn:B.
    - right. pose proof (l_tun _ _ _ _ LF B) as [_ X]. destruct (d_share d). destruct X as (c & _ & Jc & Jf & _). eauto. destruct X as (c & Jc). exists (f :: c). split; simpl; auto.
    - left. apply (l_const _ _ _ _ LF B).
  Qed.

  (** C45 for conditional random fields, in any state reached by its calls. The
      hypotheses on the model are those of [C45_field_partial]. *)
  Theorem C45_conditional_partial : forall (c : crf) e e' h' top' next, clives false c -> env_ok e -> env_ok e' ->
    (forall f, built (h' f)) -> printable (c_r c) -> no_lone_variable (c_r c) -> all_listed (c_r c) -> clear_sharing (c_r c) ->
    exists j s rho, export_json fprint e true (c_r c) = Ok j /\ import_json atof e' true next j (r_empty h' top') = Ret tt s /\
      read_content rnd rho (c_r c) s /\
      Forall2 (Forall2 (tuned_reads rnd rho (r_h (c_r c)) (r_h s))) (tunable_clusters (c_r c)) (tunable_clusters s) /\
      (exists ws, get_weights (c_r c) = Ok ws /\ get_weights s = Ok (map rnd ws)) /\
      rreach h' top' alert s.
  Proof.
    intros c e e' h' top' next L E E' Hb' PR NL AL CL. pose proof (source_coh (c_r c) (SRC_cond c L)) as CS.
    destruct (field_round_trip OK fprint atof fprint_plain rnd_zero rnd_nonneg (c_r c) e e' h' top' next CS E E' Hb' PR NL AL CL) as (j & s & rho & Q1 & Q2 & Q3 & Q4 & Q5 & _ & _ & Q6).
    exists j, s, rho. auto 8.
  Qed.
  Theorem C45_conditional_distribution : forall (c : crf) h' top' s rho, clives false c -> (forall f, built (h' f)) ->
    rreach h' top' (careful False) s -> printable (c_r c) -> read_content rnd rho (c_r c) s -> exact_values rnd (c_r c) ->
    forall v j, In v (sp_vars (contents (c_r c))) ->
       marginal (weight (r_h s) (contents s)) (contents s) (rho v) j = marginal (weight (r_h (c_r c)) (contents (c_r c))) (contents (c_r c)) v j.
  Proof.
    intros c h' top' s rho L Hb' R' PR RC EX. apply (read_distribution OK rnd (c_r c) s rho (source_coh (c_r c) (SRC_cond c L)) (rreach_coh False h' top' s Hb' R') PR RC EX).
  Qed.

  (** The conditional random field built from the random field that is read has the
      variables, the evidences, the factors and the weights of the one exported. *)
  Theorem C45_conditional_again_partial : forall (c : crf) e e' e'' h' top' next copy, clives false c -> env_ok e -> env_ok e' -> env_ok e'' ->
    (forall f, built (h' f)) -> printable (c_r c) -> no_lone_variable (c_r c) -> all_listed (c_r c) -> clear_sharing (c_r c) ->
    (exists v, seen (c_r c) v) -> ~ tunable_all_seen (c_r c) ->
    exists j s rho c', export_json fprint e true (c_r c) = Ok j /\ import_json atof e' true next j (r_empty h' top') = Ret tt s /\
      crf_ctor e'' s copy = Ret c' (c_r c') /\
      read_content rnd rho (c_r c) (c_r c') /\
      Forall2 (Forall2 (tuned_reads rnd rho (r_h (c_r c)) (r_h (c_r c')))) (tunable_clusters (c_r c)) (tunable_clusters (c_r c')) /\
      exists ws, get_weights (c_r c) = Ok ws /\ get_weights (c_r c') = Ok (map rnd ws).
  Proof.
    intros c e e' e'' h' top' next copy L E E' E'' Hb' PR NL AL CL (v & SV) TS. pose proof (source_coh (c_r c) (SRC_cond c L)) as CS.
    destruct (C45_conditional_partial c e e' h' top' next L E E' Hb' PR NL AL CL) as (j & s & rho & Q1 & Q2 & RC & CR & (ws & W1 & W2) & R).
    destruct (C46_conditional_partial s e'' copy) as (c' & B1 & B2 & B3 & B4 & _); auto.
    - eapply SRC_field; [exact Hb'|]. apply alert_careful. exact R.
    - revert NL. apply (read_lone rnd (c_r c) s rho); auto.
    - apply (json_listed h' top' e' true next j s Hb' E' Q2).
    - revert CL. apply (read_clear rnd (c_r c) s rho); auto.
    - apply (read_names rnd (c_r c) s rho); auto.
    - exists (rho v). apply (read_seen rnd (c_r c) s rho); auto. apply seen_known; auto.
    - revert TS. apply (read_unseen rnd (c_r c) s rho); auto.
    - exists j, s, rho, c'. split; auto. split; auto. split; auto. split. apply (read_then rnd (c_r c) s rho); auto. split. apply (clusters_then rnd (c_r c) s rho); auto. exists ws. split; auto. congruence.
  Qed.

  (** {1 Xml} *)
  Variable place : list nat -> list nat.
  Hypothesis OR : orderly place.
  Variable files : string -> option string.
  Variable prefix : string.
  Theorem C53_conditional_partial : forall (c : crf) e e' h' top' next, clives false c -> env_ok e -> env_ok e' ->
    (forall f, built (h' f)) -> printable (c_r c) -> no_lone_variable (c_r c) -> all_listed (c_r c) -> clear_sharing (c_r c) ->
    exists t, export_xml fprint e true (c_r c) = Ok t /\ forall t', reads place t t' ->
    exists s rho, import_xml atof place files prefix e' true next t' (r_empty h' top') = Ret tt s /\
      read_content rnd rho (c_r c) s /\
      Forall2 (Forall2 (tuned_reads rnd rho (r_h (c_r c)) (r_h s))) (tunable_clusters (c_r c)) (tunable_clusters s) /\
      (exists ws, get_weights (c_r c) = Ok ws /\ get_weights s = Ok (map rnd ws)) /\
      rreach h' top' alert s.
  Proof.
    intros c e e' h' top' next L E E' Hb' PR NL AL CL. pose proof (source_coh (c_r c) (SRC_cond c L)) as CS.
    destruct (C45_conditional_partial c e e' h' top' next L E E' Hb' PR NL AL CL) as (j & s & rho & Q1 & Q2 & Q3).
    destruct (same_file fprint atof fprint_plain place OR files prefix False (c_r c) e true j CS E PR Q1) as (t & T1 & T2). exists t. split; auto. intros t' RT. exists s, rho. rewrite (T2 t' e' true next _ RT). auto.
  Qed.
  Theorem C53_conditional_again_partial : forall (c : crf) e e' e'' h' top' next copy, clives false c -> env_ok e -> env_ok e' -> env_ok e'' ->
    (forall f, built (h' f)) -> printable (c_r c) -> no_lone_variable (c_r c) -> all_listed (c_r c) -> clear_sharing (c_r c) ->
    (exists v, seen (c_r c) v) -> ~ tunable_all_seen (c_r c) ->
    exists t, export_xml fprint e true (c_r c) = Ok t /\ forall t', reads place t t' ->
    exists s rho c', import_xml atof place files prefix e' true next t' (r_empty h' top') = Ret tt s /\
      crf_ctor e'' s copy = Ret c' (c_r c') /\
      read_content rnd rho (c_r c) (c_r c') /\
      Forall2 (Forall2 (tuned_reads rnd rho (r_h (c_r c)) (r_h (c_r c')))) (tunable_clusters (c_r c)) (tunable_clusters (c_r c')) /\
      exists ws, get_weights (c_r c) = Ok ws /\ get_weights (c_r c') = Ok (map rnd ws).
  Proof.
    intros c e e' e'' h' top' next copy L E E' E'' Hb' PR NL AL CL SV TS. pose proof (source_coh (c_r c) (SRC_cond c L)) as CS.
    destruct (C45_conditional_again_partial c e e' e'' h' top' next copy L E E' E'' Hb' PR NL AL CL SV TS) as (j & s & rho & c' & Q1 & Q2 & Q3).
    destruct (same_file fprint atof fprint_plain place OR files prefix False (c_r c) e true j CS E PR Q1) as (t & T1 & T2). exists t. split; auto. intros t' RT. exists s, rho, c'. rewrite (T2 t' e' true next _ RT). auto.
  Qed.
End P.

(** {1 Examples}

    The conditional random field of C46, after evidences, weights, gradients and samples *)
Notation cond := (snd cond_state).
Lemma cond_alive : clives false cond.
Proof. assert (Q : fst cond_state = false) by (vm_compute; reflexivity). rewrite <- Q. exact (proj1 (proper_lives _ _ cond_proper)). Qed.
Lemma cond_printable : printable (c_r cond).
Proof. apply printableb_ok. vm_compute. reflexivity. Qed.
Lemma cond_lone : no_lone_variable (c_r cond).
Proof. apply no_lone_variableb_ok. vm_compute. reflexivity. Qed.
Lemma cond_listed : all_listed (c_r cond).
Proof. apply all_listedb_ok. vm_compute. reflexivity. Qed.
Lemma cond_clear : clear_sharing (c_r cond).
Proof. apply (clearb_ok QcNum_ok). { exact (ri_built _ (ch_r _ _ (source_coh _ cond_source))). } vm_compute. reflexivity. Qed.
Lemma cond_seen : exists v, seen (c_r cond) v.
Proof. exists exB. apply seenb_spec. vm_compute. reflexivity. Qed.
Lemma cond_unseen : ~ tunable_all_seen (c_r cond).
Proof. apply unseen_tunables_ok. vm_compute. reflexivity. Qed.
Example C45_conditional_again_example : exists j s rho c', export_json print6 env_rev true (c_r cond) = Ok j /\ import_json read6 env_id true 40 j (r_empty gH 6) = Ret tt s /\
  crf_ctor env_rev s true = Ret c' (c_r c') /\ read_content rnd6 rho (c_r cond) (c_r c').
Proof.
  destruct (C45_conditional_again_partial QcNum_ok print6 read6 print6_plain read6_zero read6_nonneg cond env_rev env_id env_rev gH 6 40 true cond_alive env_rev_ok env_id_ok env_rev_ok
    gH_built cond_printable cond_lone cond_listed cond_clear cond_seen cond_unseen) as (j & s & rho & c' & Q1 & Q2 & Q3 & Q4 & _).
  exists j, s, rho, c'. split; [exact Q1|]. split; [exact Q2|]. split; [exact Q3|exact Q4].
Qed.
Example C53_conditional_again_example : exists t s rho c', export_xml print6 env_rev true (c_r cond) = Ok t /\
  import_xml read6 at_front no_file "" env_id true 40 (again at_front t) (r_empty gH 6) = Ret tt s /\ crf_ctor env_rev s false = Ret c' (c_r c') /\ read_content rnd6 rho (c_r cond) (c_r c').
Proof.
  destruct (C53_conditional_again_partial QcNum_ok print6 read6 print6_plain read6_zero read6_nonneg at_front at_front_orderly no_file "" cond env_rev env_id env_rev gH 6 40 false cond_alive env_rev_ok env_id_ok env_rev_ok
    gH_built cond_printable cond_lone cond_listed cond_clear cond_seen cond_unseen) as (t & Q1 & Q).
  destruct (Q (again at_front t) (again_reads at_front (proj1 at_front_orderly) t)) as (s & rho & c' & Q2 & Q3 & Q4 & _).
  exists t, s, rho, c'. split; [exact Q1|]. split; [exact Q2|]. split; [exact Q3|exact Q4].
Qed.

Print Assumptions C45_conditional_partial.
Print Assumptions C45_conditional_distribution.
Print Assumptions C45_conditional_again_partial.
Print Assumptions C53_conditional_partial.
Print Assumptions C53_conditional_again_partial.
