(** Property C59: importing any document into any model *)
From Coq Require Import Ascii String List Arith ZArith QArith Qcanon Bool Lia Permutation.
From Verif Require Import Res Num Categoric Combs Func FuncProofs GroupProofs FactorProofs FactorApi Graph GraphLemmas GraphInv GraphSpec BeliefSpec Hist
  Belief SafeSpec Train TrainHist Coherent TrainInv FieldHist FieldHalt FieldSafeSpec FieldSafe IO Json Xml ImportSpec Import
  P_Graph P_Categoric P_Factor Demo BeliefDemo TrainDemo P_Train P_Gradient P_GradientDemo P_Field P_Copy P_FieldSafe P_Json P_Xml.
Import ListNotations.
Open Scope nat_scope.

Section P.
  Context {N : num}.
  Notation rst := (rst (N:=N)).
  Implicit Types s : rst.
  Variable atof : string -> N.

  Lemma rreach_mono h top (G G' : rst -> rop (N:=N) -> Prop) s : (forall t op, G t op -> G' t op) -> rreach h top G s -> rreach h top G' s.
  Proof. intros M R. induction R. constructor. eapply RR_ret; eauto. eapply RR_thr; eauto. Qed.

  (** the evidences after an import *)
  Lemma gro_evidence B D O s t v : coh False s -> gro B D O s t -> In v (g_vars (r_g t)) -> ~ O (vname v) ->
    sp_evidence (contents t) v = sp_evidence (contents s) v.
  Proof.
    intros C G J NO. destruct (go_vars _ _ _ _ _ G) as (l & El & _). unfold sp_evidence, contents, spec_of. cbn [sp_ev].
    destruct (find_pos (fun w => String.eqb (vname w) (fst (vname v, vsize v)) && (vsize w =? snd (vname v, vsize v))) (g_vars (r_g s))) as [a|] eqn:F.
    - rewrite El, (find_pos_app_some _ _ _ _ F). apply (go_ev _ _ _ _ _ G). intros w Hw.
      apply find_pos_some in F as (w' & E & T & _). assert (w' = w). { unfold var_at in Hw. rewrite El, nth_error_app1 in Hw by (apply nth_error_Some; congruence). congruence. } subst w'.
      apply key_test in T. unfold vkey in T. injection T as -> _. auto.
    - destruct (find_pos _ (g_vars (r_g t))) as [b|] eqn:F'; auto. rewrite (go_ev _ _ _ _ _ G).
      + destruct (g_ev (r_g s) b) as [k|] eqn:Eb; auto. exfalso. destruct (co_ev _ _ _ (proj1 (ch_inv _ _ C)) b k Eb) as (w & Hw & _).
        apply find_pos_some in F' as (w' & E & T & _). assert (w' = w). { unfold var_at in Hw. rewrite El, nth_error_app1 in E by (apply nth_error_Some; congruence). congruence. } subst w'.
        pose proof (proj1 (find_pos_none _ _) F w (nth_error_In _ _ Hw)) as X. congruence.
      + intros w Hw. apply find_pos_some in F' as (w' & E & T & _). assert (w' = w) by (unfold var_at in Hw; congruence). subst w'. apply key_test in T. unfold vkey in T. injection T as -> _. auto.
  Qed.

  Section Any.
    Variable next : nat.
    Variables describes observes : string -> Prop.
    Let D (v : var) : Prop := describes (vname v) /\ next <= vid v.

    Lemma gro_grows s t : coh False s -> r_top s <= r_top t -> gro (r_top s) D observes s t -> grows next describes observes s t.
    Proof.
      intros C L G. pose proof G as [(l1 & A1 & A2) (l2 & A3 & A4) A5 A6 A7 A8 A9]. rewrite Forall_forall in A2, A4. constructor; auto.
      - exists l1. auto.
      - exists l2. split; auto. intros f v J Jv. apply (A4 f J v Jv).
      - intros v J NO. eapply gro_evidence; eauto.
    Qed.

    Lemma document_grows h top s e tun (o : rst -> out rst unit) : (forall f, built (h f)) -> rreach h top (careful False) s -> env_ok e ->
      document True next describes observes e o tun ->
      match o s with
      | Ret _ s' | Thr s' => rreach h top any s' /\ grows next describes observes s s'
      | NoStop => False
      | _ => True
      end.
    Proof.
      intros Hb R E (iv & pots & Eo & V & P). rewrite Eo. pose proof (rreach_coh False h top s Hb R) as C.
      set (I := fun t : rst => rreach h top any t /\ rinv t /\ r_top s <= r_top t /\ gro (r_top s) D observes s t).
      assert (X : oin True True False I (do (x, s) <- lift iv s ;; run_doc e tun (pots x) (iv_ev x) s)).
      { assert (CALL : forall op t, I t -> rok op t -> match rcall e op t with Ret _ u | Thr u => gro (r_top s) D observes t u | _ => True end -> oin True True False I (rcall e op t)).
        { intros op t (R1 & R2 & R3 & R4) K GG. pose proof (rcall_step e op t R2 K) as ST. pose proof (rreach_halts h top any t e op Hb R1 K E) as NS.
          destruct (rcall e op t) as [a u|u| | |] eqn:Q; cbn [oin ostep] in *; auto; destruct ST as [ST1 ST2].
          - split. eapply RR_ret; eauto. exact Logic.I. split; auto. split. pose proof (rl_top _ _ ST2). lia. apply (gro_trans _ _ _ s t u R2 ST2 R4 GG).
          - split. eapply RR_thr; eauto. exact Logic.I. split; auto. split. pose proof (rl_top _ _ ST2). lia. apply (gro_trans _ _ _ s t u R2 ST2 R4 GG). }
        assert (UN : forall A (ob : out rst A) (f : A -> answer), oin True True False I (rmapo f ob) -> oin True True False I ob).
        { intros A ob f. destruct ob; cbn; auto. }
        eapply any_doc with (B := r_top s) (I := I) (describes := describes); eauto.
        - intros t (_ & Q & L & _). auto.
        - intros t f It Bf Vf. pose proof It as (R1 & R2 & R3 & R4). apply (CALL (RNew f) t It Bf). apply alloc_gro; auto.
        - intros t k It L Vf. pose proof It as (R1 & R2 & R3 & R4). apply (UN _ _ (fun _ => AUnit)). apply (CALL (RConst (Some k)) t It). apply L.
          pose proof (add_const_gro (r_top s) D observes t k R2 (proj2 L) Vf) as Q. cbn [rcall]. unfold runit. destruct (add_const (Some k) t); exact Q.
        - intros t k sh It L X Vf. pose proof It as (R1 & R2 & R3 & R4). apply (UN _ _ (fun _ => AUnit)). apply (CALL (RTun (Some k) sh) t It). exact X.
          pose proof (add_tunable_gro (r_top s) D observes t k sh R2 X L Vf) as Q. cbn [rcall]. unfold runit. destruct (add_tunable (Some k) sh t); exact Q.
        - intros n k t On It. pose proof (CALL (RGraph (OSetName n k)) t It eq_refl) as Q. pose proof (set_name_gro (r_top s) D observes e t n k On) as Q'.
          cbn [rcall] in Q. unfold on_g in *. cbn [call] in Q. unfold omap in Q. destruct (set_evidence_name (r_h t) e (r_g t) n k) as [[] u|u| | |]; cbn [obind oin ogro] in *; auto.
        - split. eapply rreach_mono; [|exact R]. intros; exact Logic.I. split. apply (ch_r _ _ C). split; auto. apply gro_refl. }
      destruct (do (x, s) <- lift iv s ;; run_doc e tun (pots x) (iv_ev x) s) as [a u|u| | |]; cbn [oin] in X; auto; destruct X as (X1 & X2 & X3 & X4); split; auto; apply gro_grows; auto.
    Qed.

    (** the calls made by an import *)
    Definition inserting (op : rop (N:=N)) : Prop :=
      match op with RNew _ | RConst _ | RTun _ _ | RGraph (OSetName _ _) => True | _ => False end.

    Lemma unobserved_keep B s t v : coh False s -> gro B D (fun _ => False) s t -> (forall w, In w (g_vars (r_g s)) -> describes (vname w) -> unobserved s w) ->
      describes (vname v) -> unobserved t v.
    Proof.
      intros C G H Dv. unfold unobserved, sp_observed. destruct (sp_known (spec_of (r_g t)) v) eqn:K; auto. cbn [andb].
      assert (Jk : exists w, In w (g_vars (r_g t)) /\ vkey w = vkey v).
      { unfold sp_known in K. apply existsb_exists in K as (w & J & T). exists w. split; auto. unfold var_veqb in T. apply andb_true_iff in T as [T1 T2]. apply String.eqb_eq in T1. apply Nat.eqb_eq in T2. unfold vkey. congruence. }
      destruct Jk as (w & Jw & Kw). unfold vkey in Kw. injection Kw as Kn Ks.
      pose proof (gro_evidence B D (fun _ => False) s t w C G Jw (fun x => x)) as Q. unfold sp_evidence, contents in Q. rewrite Kn, Ks in Q. rewrite Q.
      destruct (sp_ev (spec_of (r_g s)) (vname v, vsize v)) as [k|] eqn:E; auto.
      assert (J0 : exists w0, In w0 (g_vars (r_g s)) /\ vkey w0 = (vname v, vsize v)).
      { unfold spec_of in E. cbn [sp_ev] in E. destruct (find_pos _ (g_vars (r_g s))) as [a|] eqn:F; [|discriminate]. apply find_pos_some in F as (w0 & E0 & T & _). apply key_test in T. exists w0. split; auto. eapply nth_error_In; eauto. }
      destruct J0 as (w0 & J0 & K0). unfold vkey in K0. injection K0 as Kn0 Ks0. assert (Dw : describes (vname w0)) by congruence. pose proof (H w0 J0 Dw) as X.
      unfold unobserved, sp_observed in X. rewrite Kn0, Ks0, E in X. apply andb_false_iff in X as [X|X]; [|discriminate].
      assert (Y : sp_known (spec_of (r_g s)) w0 = true).
      { apply existsb_exists. exists w0. split; auto. unfold same_key. rewrite Nat.eqb_refl, String.eqb_refl. auto. } rewrite Y in X. discriminate.
    Qed.

    Lemma document_reach (U NN : Prop) (G : rst -> rop (N:=N) -> Prop) h top s e tun (o : rst -> out rst unit) : (forall f, built (h f)) ->
      (forall t op, G t op -> careful False t op) -> (forall t op, careful True t op -> inserting op -> G t op) ->
      (forall t op, rreach h top G t -> rok op t -> G t op -> inserting op -> (rcall e op t = Undef -> U) /\ (rcall e op t = NotNum -> NN)) ->
      rreach h top G s -> env_ok e -> document U next describes observes e o tun ->
      (forall v, In v (g_vars (r_g s)) -> describes (vname v) -> unobserved s v) ->
      match o s with
      | Ret _ s' | Thr s' => rreach h top G s'
      | Undef => U
      | NotNum => NN
      | NoStop => False
      end.
    Proof.
      intros Hb G1 G2 GU R E (iv & pots & Eo & V & P) OBS. rewrite Eo. pose proof (rreach_coh False h top s Hb (rreach_mono h top G _ s G1 R)) as C.
      set (I := fun t : rst => rreach h top G t /\ rinv t /\ r_top s <= r_top t /\ gro (r_top s) D (fun _ => False) s t).
      set (J := fun t : rst => rreach h top G t).
      assert (X : oin U NN False J (do (x, s) <- lift iv s ;; run_doc e tun (pots x) (iv_ev x) s)).
      { assert (CJ : forall op t, J t -> rok op t -> careful True t op -> inserting op -> oin U NN False J (rcall e op t)).
        { intros op t R1 K CF IN. pose proof (G2 t op CF IN) as Gt. destruct (GU t op R1 K Gt IN) as [U1 U2]. pose proof (rreach_halts h top G t e op Hb R1 K E) as NS.
          destruct (rcall e op t) as [a u|u| | |] eqn:Q; cbn [oin] in *; auto; unfold J. eapply RR_ret; eauto. eapply RR_thr; eauto. }
        assert (CALL : forall op t, I t -> rok op t -> careful True t op -> inserting op -> match rcall e op t with Ret _ u | Thr u => gro (r_top s) D (fun _ => False) t u | _ => True end -> oin U NN False I (rcall e op t)).
        { intros op t (R1 & R2 & R3 & R4) K CF IN GG. pose proof (rcall_step e op t R2 K) as ST. pose proof (CJ op t R1 K CF IN) as Q.
          destruct (rcall e op t) as [a u|u| | |]; cbn [oin ostep] in *; auto; destruct ST as [ST1 ST2].
          - split; auto. split; auto. split. pose proof (rl_top _ _ ST2). lia. apply (gro_trans _ _ _ s t u R2 ST2 R4 GG).
          - split; auto. split; auto. split. pose proof (rl_top _ _ ST2). lia. apply (gro_trans _ _ _ s t u R2 ST2 R4 GG). }
        assert (UN : forall A (ob : out rst A) (f : A -> answer) (Q : rst -> Prop), oin U NN False Q (rmapo f ob) -> oin U NN False Q ob).
        { intros A ob f Q. destruct ob; cbn; auto. }
        eapply any_doc with (B := r_top s) (I := I) (describes := describes); eauto.
        - intros t (_ & Q & L & _). auto.
        - intros t f It Bf Vf. pose proof It as (R1 & R2 & R3 & R4). apply (CALL (RNew f) t It Bf); try exact Logic.I. apply alloc_gro; auto.
        - intros t k It L Vf. pose proof It as (R1 & R2 & R3 & R4). apply (UN _ _ (fun _ => AUnit)). apply (CALL (RConst (Some k)) t It); try exact Logic.I. apply L.
          pose proof (add_const_gro (r_top s) D (fun _ => False) t k R2 (proj2 L) Vf) as Q. cbn [rcall]. unfold runit. destruct (add_const (Some k) t); exact Q.
        - intros t k sh It L X Vf. pose proof It as (R1 & R2 & R3 & R4). apply (UN _ _ (fun _ => AUnit)). apply (CALL (RTun (Some k) sh) t It); try exact Logic.I. exact X.
          + cbn [careful]. destruct sh; [|exact Logic.I]. intros v Jv. eapply unobserved_keep; eauto. apply (Vf v Jv).
          + pose proof (add_tunable_gro (r_top s) D (fun _ => False) t k sh R2 X L Vf) as Q. cbn [rcall]. unfold runit. destruct (add_tunable (Some k) sh t); exact Q.
        - intros t (Q & _). exact Q.
        - intros n k t On It. pose proof (CJ (RGraph (OSetName n k)) t It eq_refl (conj Logic.I (fun _ => Logic.I)) Logic.I) as Q.
          cbn [rcall] in Q. unfold on_g in *. cbn [call] in Q. unfold omap in Q. destruct (set_evidence_name (r_h t) e (r_g t) n k) as [[] u|u| | |]; cbn [obind oin] in *; auto.
        - split; auto. split. apply (ch_r _ _ C). split; auto. apply gro_refl. }
      destruct (do (x, s) <- lift iv s ;; run_doc e tun (pots x) (iv_ev x) s) as [a u|u| | |]; cbn [oin] in X; auto.
    Qed.
  End Any.

  (** {1 Theorems} *)

  (** The import of any json, valid or not, into any model: when it returns or throws,
      the model is one that the calls of the library can reach, everything that was
      in it is still there, unchanged, what is new is on new variables named in the
      document, and the evidences change only where the document observes a variable;
      the import always ends. *)
  Theorem C59_json_grows : forall h top s e tun next j, (forall f, built (h f)) -> rreach h top (careful False) s -> env_ok e ->
    match import_json atof e tun next j s with
    | Ret _ s' | Thr s' => rreach h top any s' /\ grows next (describes j) (observes j) s s'
    | NoStop => False
    | _ => True
    end.
  Proof. intros h top s e tun next j Hb R E. eapply document_grows; eauto. apply json_document; auto. Qed.
  Theorem C59_xml_grows : forall h top s place files prefix e tun next d, (forall f, built (h f)) -> rreach h top (careful False) s -> env_ok e ->
    match import_xml atof place files prefix e tun next d s with
    | Ret _ s' | Thr s' => rreach h top any s' /\ grows next (xml_describes place d) (xml_observes place d) s s'
    | NoStop => False
    | _ => True
    end.
  Proof. intros h top s place files prefix e tun next d Hb R E. eapply document_grows; eauto. apply xml_document; auto. Qed.

  (** No undefined behaviour when the document has the members it should have and its
      integers fit an [int], whatever else is in it, and when no variable of the model
      with an evidence has the name of a variable of the document. The model can be
      used as before after the import, also when it threw. *)
  Theorem C59_json_safe_partial : forall h top s e tun next j, (forall f, built (h f)) -> rreach h top rsafe s -> env_ok e -> readable j ->
    (forall v, In v (g_vars (r_g s)) -> describes j (vname v) -> unobserved s v) ->
    match import_json atof e tun next j s with
    | Ret _ s' | Thr s' => rreach h top rsafe s'
    | NotNum => exists x : N, ndz x = true
    | _ => False
    end.
  Proof.
    intros h top s e tun next j Hb R E RD OBS.
    pose proof (document_reach next (describes j) (observes j) False (Safe.stops N) rsafe h top s e tun (import_json atof e tun next j) Hb) as X.
    destruct (import_json atof e tun next j s); apply X; auto; try (apply json_document; auto).
    all: try (intros t op Q; destruct Q as [Q _]; destruct op; cbn [careful] in *; auto; split; [apply Q|tauto]).
    all: try (intros t op Q IN; split; auto; destruct op; cbn [inserting] in IN; try exact Logic.I; try contradiction; destruct op; try contradiction; repeat split; try exact Logic.I; intros; discriminate).
    all: intros t op R1 K Gt _; destruct (rreach_defined h top t e op Hb R1 K Gt E) as [Q1 Q2]; split; auto; intros Q; contradiction.
  Qed.
  Theorem C59_xml_safe_partial : forall h top s place files prefix e tun next d, (forall f, built (h f)) -> rreach h top rsafe s -> env_ok e ->
    xml_readable place files prefix d -> (forall v, In v (g_vars (r_g s)) -> xml_describes place d (vname v) -> unobserved s v) ->
    match import_xml atof place files prefix e tun next d s with
    | Ret _ s' | Thr s' => rreach h top rsafe s'
    | NotNum => exists x : N, ndz x = true
    | _ => False
    end.
  Proof.
    intros h top s place files prefix e tun next d Hb R E RD OBS.
    pose proof (document_reach next (xml_describes place d) (xml_observes place d) False (Safe.stops N) rsafe h top s e tun (import_xml atof place files prefix e tun next d) Hb) as X.
    destruct (import_xml atof place files prefix e tun next d s); apply X; auto; try (apply xml_document; auto).
    all: try (intros t op Q; destruct Q as [Q _]; destruct op; cbn [careful] in *; auto; split; [apply Q|tauto]).
    all: try (intros t op Q IN; split; auto; destruct op; cbn [inserting] in IN; try exact Logic.I; try contradiction; destruct op; try contradiction; repeat split; try exact Logic.I; intros; discriminate).
    all: intros t op R1 K Gt _; destruct (rreach_defined h top t e op Hb R1 K Gt E) as [Q1 Q2]; split; auto; intros Q; contradiction.
  Qed.

  (** What is imported is apart from what was in the model: a new factor has no
      variable in common with the factors that were there (the same name and size as a
      variable of the model makes the import throw). [next]: the variables of the
      document are new objects. *)
  Lemma coh_in P s f v : coh P s -> In f (g_all (r_g s)) -> In v (f_vars (r_h s f)) -> In v (g_vars (r_g s)).
  Proof.
    intros C J Jv. destruct (co_fac _ _ _ (proj1 (ch_inv _ _ C)) f J) as [(w & a & Ef & V & _)|(va & vb & a & b & c & Ef & V1 & V2 & _)];
      unfold fvars in Ef; rewrite Ef in Jv; cbn [In] in Jv.
    - destruct Jv as [<-|[]]. eapply nth_error_In; eauto.
    - destruct Jv as [<-|[<-|[]]]; eapply nth_error_In; eauto.
  Qed.
  Lemma apart s s' next describes observes : coh False s' -> grows next describes observes s s' -> (forall v, In v (g_vars (r_g s)) -> vid v < next) ->
    forall f v w, In f (g_all (r_g s')) -> ~ In f (g_all (r_g s)) -> In v (f_vars (r_h s' f)) -> In w (g_vars (r_g s)) -> vkey v <> vkey w.
  Proof.
    intros C G L f v w J NJ Jv Jw Q. destruct (gr_facs _ _ _ _ _ G) as (l & El & Dl). destruct (gr_vars _ _ _ _ _ G) as (lv & Ev & _).
    rewrite El in J. apply in_app_iff in J as [J|J]; [contradiction|]. destruct (Dl f v J Jv) as [_ Lv]. specialize (L w Jw).
    assert (J1 : In v (g_vars (r_g s'))). { apply (coh_in False s' f v C); auto. rewrite El. apply in_app_iff. auto. }
    assert (J2 : In w (g_vars (r_g s'))). { rewrite Ev. apply in_app_iff. auto. }
    pose proof (co_vars _ _ _ (proj1 (ch_inv _ _ C))) as ND. assert (v = w). { eapply NoDup_vkey_inj; eauto. } subst w. lia.
  Qed.
  Theorem C59_json_separate : forall h top s e tun next j, (forall f, built (h f)) -> rreach h top (careful False) s -> env_ok e ->
    (forall v, In v (g_vars (r_g s)) -> describes j (vname v) -> unobserved s v) -> (forall v, In v (g_vars (r_g s)) -> vid v < next) ->
    forall s', import_json atof e tun next j s = Ret tt s' \/ import_json atof e tun next j s = Thr s' ->
    forall f v w, In f (g_all (r_g s')) -> ~ In f (g_all (r_g s)) -> In v (f_vars (r_h s' f)) -> In w (g_vars (r_g s)) -> vkey v <> vkey w.
  Proof.
    intros h top s e tun next j Hb R E OBS L s' Q.
    pose proof (C59_json_grows h top s e tun next j Hb R E) as X.
    assert (Y : match import_json atof e tun next j s with Ret _ s' | Thr s' => rreach h top (careful False) s' | Undef => True | NotNum => True | NoStop => False end).
    { apply (document_reach next (describes j) (observes j) True True (careful False) h top s e tun); auto.
      intros t op Q1 IN; destruct op; cbn [careful inserting] in *; auto; split; [apply Q1|tauto]. apply json_document; auto. }
    destruct Q as [Q|Q]; rewrite Q in X, Y; destruct X as [_ X]; apply (apart s s' next (describes j) (observes j)); auto; apply (rreach_coh False h top s' Hb Y).
  Qed.
  Theorem C59_xml_separate : forall h top s place files prefix e tun next d, (forall f, built (h f)) -> rreach h top (careful False) s -> env_ok e ->
    (forall v, In v (g_vars (r_g s)) -> xml_describes place d (vname v) -> unobserved s v) -> (forall v, In v (g_vars (r_g s)) -> vid v < next) ->
    forall s', import_xml atof place files prefix e tun next d s = Ret tt s' \/ import_xml atof place files prefix e tun next d s = Thr s' ->
    forall f v w, In f (g_all (r_g s')) -> ~ In f (g_all (r_g s)) -> In v (f_vars (r_h s' f)) -> In w (g_vars (r_g s)) -> vkey v <> vkey w.
  Proof.
    intros h top s place files prefix e tun next d Hb R E OBS L s' Q.
    pose proof (C59_xml_grows h top s place files prefix e tun next d Hb R E) as X.
    assert (Y : match import_xml atof place files prefix e tun next d s with Ret _ s' | Thr s' => rreach h top (careful False) s' | Undef => True | NotNum => True | NoStop => False end).
    { apply (document_reach next (xml_describes place d) (xml_observes place d) True True (careful False) h top s e tun); auto.
      intros t op Q1 IN; destruct op; cbn [careful inserting] in *; auto; split; [apply Q1|tauto]. apply xml_document; auto. }
    destruct Q as [Q|Q]; rewrite Q in X, Y; destruct X as [_ X]; apply (apart s s' next (xml_describes place d) (xml_observes place d)); auto; apply (rreach_coh False h top s' Hb Y).
  Qed.
End P.

(** {1 Examples} *)

(** a document with two new variables, one of them observed, and a tunable factor *)
Definition two_more : json :=
  JObj [("Variables", JArr [JObj [("name", JStr "X"); ("Size", JStr "2")]; JObj [("name", JStr "Y"); ("Size", JStr "2"); ("evidence", JStr "1")]]);
        ("Potentials", JArr [JObj [("Variables", JArr [JStr "X"; JStr "Y"]); ("Correlation", JStr "T"); ("weight", JStr "2.000000"); ("tunability", JStr "Y")];
                             JObj [("Variables", JArr [JStr "X"]); ("Distr_val", JArr [JObj [("D", JStr "3.000000"); ("v", JArr [JStr "1"])]])]])]%string.
Definition int_textb (t : string) : bool := match atoi t with UB => false | _ => true end.
Lemma int_textb_ok t : int_textb t = true -> int_text t.
Proof. unfold int_textb, int_text. destruct (atoi t); congruence. Qed.
Ltac members := repeat match goal with
  | H : In _ (_ :: _) |- _ => destruct H as [H|H]
  | H : In _ [] |- _ => destruct H
  | H : Some _ = Some _ |- _ => injection H as H
  | H : None = Some _ |- _ => discriminate H
  | H : JObj _ = JObj _ |- _ => injection H as H
  | H : JStr _ = JStr _ |- _ => injection H as H
  | H : JStr _ = JObj _ |- _ => discriminate H
  | H : JObj _ = JStr _ |- _ => discriminate H
  end.
Example two_more_readable : readable two_more.
Proof.
  split; [intros l Q; injection Q as <-; eexists; reflexivity|]. split; [intros l Q; injection Q as <-; eexists; reflexivity|]. split.
  - intros v x Q J. vm_compute in Q. injection Q as <-. cbn [jiter] in J. destruct J as [<-|[<-|[]]]; split; intros t T; vm_compute in T; try discriminate T; injection T as <-; apply int_textb_ok; vm_compute; reflexivity.
  - intros p x Q J. vm_compute in Q. injection Q as <-. cbn [jiter] in J. destruct J as [<-|[<-|[]]]; intros d y T Jy; vm_compute in T; try discriminate T; injection T as <-.
    destruct Jy as [<-|[]]. split. intros l Q; injection Q as <-; eexists; reflexivity.
    intros l v t Q T Jt. injection Q as <-. vm_compute in T. injection T as <-. destruct Jt as [Jt|[]]. injection Jt as <-. apply int_textb_ok. vm_compute. reflexivity.
Qed.
Notation more_state := (import_json read6 env_id true 40 two_more rsafe_state).
Example two_more_imported : returns more_state = true /\ length (g_all (r_g (state_of more_state))) = 6 /\ length (g_vars (r_g (state_of more_state))) = 6 /\
  length (tunable_clusters (state_of more_state)) = 2.
Proof. split; [|split; [|split]]; vm_compute; reflexivity. Qed.
Lemma two_more_names name : describes two_more name -> name = "X"%string \/ name = "Y"%string.
Proof.
  intros (v & x & t & Q & J & T & ->). vm_compute in Q. injection Q as <-. cbn [jiter] in J. destruct J as [<-|[<-|[]]]; vm_compute in T; injection T as <-; auto.
Qed.
Lemma old_names : forallb (fun v => negb (String.eqb (vname v) "X") && negb (String.eqb (vname v) "Y") && (vid v <? 40)) (g_vars (r_g rsafe_state)) = true.
Proof. vm_compute. reflexivity. Qed.
Lemma two_more_new v : In v (g_vars (r_g rsafe_state)) -> describes two_more (vname v) -> unobserved rsafe_state v.
Proof.
  intros J D. pose proof (proj1 (forallb_forall _ _) old_names v J) as Q. cbv beta in Q. apply andb_true_iff in Q as [Q _]. apply andb_true_iff in Q as [Q1 Q2].
  apply two_more_names in D as [D|D]; rewrite D in Q1, Q2. discriminate Q1. discriminate Q2.
Qed.
Example C59_json_example : rreach gH 6 rsafe (state_of more_state) /\ grows 40 (describes two_more) (observes two_more) rsafe_state (state_of more_state) /\
  forall f v w, In f (g_all (r_g (state_of more_state))) -> ~ In f (g_all (r_g rsafe_state)) -> In v (f_vars (r_h (state_of more_state) f)) -> In w (g_vars (r_g rsafe_state)) -> vkey v <> vkey w.
Proof.
  pose proof (returns_state more_state (proj1 two_more_imported)) as Q.
  assert (RC : rreach gH 6 (careful False) rsafe_state).
  { apply (rreach_mono gH 6 rsafe); [|exact rsafe_reach]. intros t op X. destruct X as [X _]; destruct op; cbn [careful] in *; auto; split; [apply X|tauto]. }
  pose proof (C59_json_safe_partial read6 gH 6 rsafe_state env_id true 40 two_more gH_built rsafe_reach env_id_ok two_more_readable two_more_new) as X1.
  pose proof (C59_json_grows read6 gH 6 rsafe_state env_id true 40 two_more gH_built RC env_id_ok) as X2.
  rewrite Q in X1, X2. split; [exact X1|]. split; [apply X2|].
  apply (C59_json_separate read6 gH 6 rsafe_state env_id true 40 two_more gH_built RC env_id_ok two_more_new); [|left; exact Q].
  intros v J. pose proof (proj1 (forallb_forall _ _) old_names v J) as Y. cbv beta in Y. apply andb_true_iff in Y as [_ Y]. apply Nat.ltb_lt. exact Y.
Qed.

Definition two_more_tag : tag :=
  Tag [] [("Variable", Tag [("name", "X"); ("Size", "2")] []); ("Variable", Tag [("name", "Y"); ("Size", "2"); ("evidence", "1")] []);
          ("Potential", Tag [("var", "X"); ("var", "Y"); ("Source", "table"); ("weight", "2.000000"); ("tunability", "Y")] []);
          ("Potential", Tag [("var", "X")] [("Distr_val", Tag [("v", "1"); ("D", "3.000000")] [])])]%string.
Lemma tokens_of_table : lines "0 1 7.000000"%string = ["0 1 7.000000"%string] /\ tokens "0 1 7.000000"%string = ["0"; "1"; "7.000000"]%string.
Proof. split; vm_compute; reflexivity. Qed.
Example two_more_tag_readable : xml_readable at_end table_file "." two_more_tag.
Proof.
  split.
  - intros x J. vm_compute in J. destruct J as [<-|[<-|[]]]; split; intros t T; vm_compute in T; try discriminate T; injection T as <-; apply int_textb_ok; vm_compute; reflexivity.
  - intros x J. vm_compute in J. destruct J as [<-|[<-|[]]]; split.
    + intros y Jy. vm_compute in Jy. destruct Jy.
    + intros source text l T F Jl. vm_compute in T. injection T as <-. vm_compute in F. injection F as <-.
      rewrite (proj1 tokens_of_table) in Jl. destruct Jl as [<-|[]]. unfold readable_line. rewrite (proj2 tokens_of_table). split; [discriminate|].
      intros t Jt. cbn [removelast] in Jt. destruct Jt as [<-|[<-|[]]]; apply int_textb_ok; vm_compute; reflexivity.
    + intros y Jy t Jt. vm_compute in Jy. destruct Jy as [<-|[]]. vm_compute in Jt. destruct Jt as [<-|[]]. apply int_textb_ok; vm_compute; reflexivity.
    + intros source text l T. vm_compute in T. discriminate T.
Qed.
Notation more_tag := (import_xml read6 at_end table_file "." env_id true 40 two_more_tag rsafe_state).
Example two_more_tag_imported : returns more_tag = true /\ length (g_all (r_g (state_of more_tag))) = 6 /\ length (g_vars (r_g (state_of more_tag))) = 6 /\
  length (tunable_clusters (state_of more_tag)) = 2.
Proof. split; [|split; [|split]]; vm_compute; reflexivity. Qed.
Lemma two_more_tag_names name : xml_describes at_end two_more_tag name -> name = "X"%string \/ name = "Y"%string.
Proof. intros (x & J & T). vm_compute in J. destruct J as [<-|[<-|[]]]; vm_compute in T; injection T as <-; auto. Qed.
Lemma two_more_tag_new v : In v (g_vars (r_g rsafe_state)) -> xml_describes at_end two_more_tag (vname v) -> unobserved rsafe_state v.
Proof.
  intros J D. pose proof (proj1 (forallb_forall _ _) old_names v J) as Q. cbv beta in Q. apply andb_true_iff in Q as [Q _]. apply andb_true_iff in Q as [Q1 Q2].
  apply two_more_tag_names in D as [D|D]; rewrite D in Q1, Q2. discriminate Q1. discriminate Q2.
Qed.
Example C59_xml_example : rreach gH 6 rsafe (state_of more_tag) /\ grows 40 (xml_describes at_end two_more_tag) (xml_observes at_end two_more_tag) rsafe_state (state_of more_tag) /\
  forall f v w, In f (g_all (r_g (state_of more_tag))) -> ~ In f (g_all (r_g rsafe_state)) -> In v (f_vars (r_h (state_of more_tag) f)) -> In w (g_vars (r_g rsafe_state)) -> vkey v <> vkey w.
Proof.
  pose proof (returns_state more_tag (proj1 two_more_tag_imported)) as Q.
  assert (RC : rreach gH 6 (careful False) rsafe_state).
  { apply (rreach_mono gH 6 rsafe); [|exact rsafe_reach]. intros t op X. destruct X as [X _]; destruct op; cbn [careful] in *; auto; split; [apply X|tauto]. }
  pose proof (C59_xml_safe_partial read6 gH 6 rsafe_state at_end table_file "." env_id true 40 two_more_tag gH_built rsafe_reach env_id_ok two_more_tag_readable two_more_tag_new) as X1.
  pose proof (C59_xml_grows read6 gH 6 rsafe_state at_end table_file "." env_id true 40 two_more_tag gH_built RC env_id_ok) as X2.
  rewrite Q in X1, X2. split; [exact X1|]. split; [apply X2|].
  apply (C59_xml_separate read6 gH 6 rsafe_state at_end table_file "." env_id true 40 two_more_tag gH_built RC env_id_ok two_more_tag_new); [|left; exact Q].
  intros v J. pose proof (proj1 (forallb_forall _ _) old_names v J) as Y. cbv beta in Y. apply andb_true_iff in Y as [_ Y]. apply Nat.ltb_lt. exact Y.
Qed.

(** {1 What the full statement would want and the code does not do} *)

(** The members "Variables", "Potentials" and "v" are read with [operator[]] on a const
    json, that is undefined when they are missing; an integer that does not fit an
    [int] is undefined behaviour of [std::atoi]. Both for every model. *)
Theorem C59_missing_members_refuted : forall s : rst (N:=QcNum), forall e tun next,
  import_json read6 e tun next (JObj [("Potentials", JArr [])])%string s = Undef /\
  import_json read6 e tun next (JObj [("Variables", JArr [])])%string s = Undef /\
  import_json read6 env_id tun next (JObj [("Variables", JArr [JObj [("name", JStr "X"); ("Size", JStr "2")]]);
                                      ("Potentials", JArr [JObj [("Variables", JArr [JStr "X"]); ("Distr_val", JArr [JObj [("D", JStr "3.000000")]])]])])%string s = Undef.
Proof. intros s e tun next. split; [|split]; reflexivity. Qed.
Theorem C59_big_integer_refuted : forall (s : rst (N:=QcNum)) e tun next files prefix,
  import_json read6 e tun next (JObj [("Variables", JArr [JObj [("name", JStr "X"); ("Size", JStr "99999999999")]]); ("Potentials", JArr [])])%string s = Undef /\
  import_xml read6 at_end files prefix e tun next (Tag [] [("Variable", Tag [("name", "X"); ("Size", "99999999999")] [])])%string s = Undef.
Proof. intros s e tun next files prefix. split; reflexivity. Qed.
(** A blank line in a file of values: [back] on an empty vector. *)
Definition blank_file (name : string) : option string := if String.eqb name "./table" then Some (String (ascii_of_nat 10) "0 1 7.000000")%string else None.
Theorem C59_blank_line_refuted : forall (s : rst (N:=QcNum)) tun next, import_xml read6 at_end blank_file "." env_id tun next by_hand s = Undef.
Proof. intros s tun next. reflexivity. Qed.

(** An import that throws is not undone: the factors read before stay in the model. *)
Definition half : json :=
  JObj [("Variables", JArr [JObj [("name", JStr "X"); ("Size", JStr "2")]]);
        ("Potentials", JArr [JObj [("Variables", JArr [JStr "X"]); ("Distr_val", JArr [JObj [("D", JStr "3.000000"); ("v", JArr [JStr "1"])]])];
                             JObj [("Variables", JArr [JStr "X"; JStr "Z"]); ("Correlation", JStr "T")]])]%string.
Notation half_state := (import_json read6 env_id true 40 half rsafe_state).
Theorem C59_rollback_refuted : rreach gH 6 rsafe rsafe_state /\ exists s, half_state = Thr s /\ length (g_all (r_g rsafe_state)) = 4 /\ length (g_all (r_g s)) = 5.
Proof.
  split; [exact rsafe_reach|]. exists (state_of half_state). split; [apply threw_state; vm_compute; reflexivity|]. split; vm_compute; reflexivity.
Qed.
(** The same document twice: the second import throws, with what it read before the
    first potential. *)
Notation again_state := (import_json read6 env_id true 50 two_more (state_of more_state)).
Example C59_twice : exists s, again_state = Thr s /\ length (g_all (r_g s)) = 6.
Proof. exists (state_of again_state). split; [apply threw_state; vm_compute; reflexivity|]. vm_compute; reflexivity. Qed.

(** The evidences of the document are set by name: a variable of the model with the name
    of a variable of the document, but another size, gets the evidence instead of the one
    of the document. *)
Definition homonym : json :=
  JObj [("Variables", JArr [JObj [("name", JStr "A"); ("Size", JStr "3"); ("evidence", JStr "1")]]);
        ("Potentials", JArr [JObj [("Variables", JArr [JStr "A"]); ("Distr_val", JArr [JObj [("D", JStr "3.000000"); ("v", JArr [JStr "1"])]])]])]%string.
Notation homonym_state := (import_json read6 env_id true 40 homonym rsafe_state).
Theorem C59_evidence_of_homonym_refuted : rreach gH 6 rsafe rsafe_state /\ exists s, homonym_state = Ret tt s /\ sp_evidence (contents rsafe_state) exA = None /\ sp_evidence (contents s) exA = Some 1 /\ sp_evidence (contents s) (mkVar 40 "A" 3) = None.
Proof.
  split; [exact rsafe_reach|]. exists (state_of homonym_state). split; [apply returns_state; vm_compute; reflexivity|]. split; [|split]; vm_compute; reflexivity.
Qed.

Print Assumptions C59_json_grows.
Print Assumptions C59_xml_grows.
Print Assumptions C59_json_safe_partial.
Print Assumptions C59_xml_safe_partial.
Print Assumptions C59_json_separate.
Print Assumptions C59_xml_separate.
Print Assumptions C59_missing_members_refuted.
Print Assumptions C59_big_integer_refuted.
Print Assumptions C59_blank_line_refuted.
Print Assumptions C59_rollback_refuted.
Print Assumptions C59_evidence_of_homonym_refuted.
