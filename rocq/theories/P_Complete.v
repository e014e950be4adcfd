(** Property C61: what the model contains when an import has returned *)
From Coq Require Import Ascii String List Arith ZArith QArith Qcanon Bool Lia Permutation.
From Verif Require Import Res Num Categoric Combs Func FuncProofs GroupProofs FactorProofs FactorApi Graph GraphLemmas GraphInv GraphSpec BeliefSpec Hist
  Belief SafeSpec Train TrainHist Coherent TrainInv FieldHist FieldHalt FieldSafeSpec FieldSafe IO Json Xml ImportSpec CompleteSpec Import Complete
  P_Graph P_Categoric P_Factor Demo BeliefDemo TrainDemo P_Train P_Gradient P_GradientDemo P_Field P_Copy P_FieldSafe P_Json P_Xml P_Import.
Import ListNotations.
Open Scope nat_scope.

Section P.
  Context {N : num}.
  Notation rst := (rst (N:=N)).
  Implicit Types s : rst.
  Variable atof : string -> N.

  Lemma f2_ok {A B} (f : A -> res B) l m : map f l = map Ok m -> Forall2 (fun a b => f a = Ok b) l m.
  Proof. revert m. induction l as [|a l IH]; intros [|b m] E; try discriminate E; constructor; injection E; auto. Qed.
  Lemma names_known vars (vs : list ((string * nat) * option nat)) ds (ps : list (func N * iway)) : map vkey vars = map fst vs -> Forall (entry vars) ps -> Forall2 fits ds ps ->
    Forall (fun d => incl (d_names d) (map (fun v => fst (fst v)) vs)) ds.
  Proof.
    intros K E F. induction F as [|d p ds ps Fd F IH]; constructor; inversion E; subst; auto. destruct Fd as (<- & _). intros n J. apply in_map_iff in J as (v & <- & J).
    destruct H1 as (_ & I & _). apply I in J. apply (in_map vkey) in J. rewrite K in J. apply in_map_iff in J as (w & Ew & J). apply in_map_iff. exists w. rewrite Ew. split; auto.
  Qed.

  (** When the import of a json returns: the pairs of a name and a size in the document
      are distinct; each potential of the document is a factor of the model, a new one,
      with the variables, the values and the weight written in the document, tunable or
      not as written, in the cluster of the factor it shares its weight with; no other
      factor is new; for each name with an evidence, a variable with that name has an
      evidence given to that name in the document (the only one, if no two
      variables have the name). *)
  Theorem C61_json : forall h top s e tun next j s', (forall f, built (h f)) -> rreach h top any s -> env_ok e -> import_json atof e tun next j s = Ret tt s' ->
    exists jv jp vs, try_access j "Variables" = Some jv /\ try_access j "Potentials" = Some jp /\
      Forall2 (fun x v => json_variable_is x (fst v) /\ json_evidence x (snd v)) (jiter jv) vs /\ NoDup (map fst vs) /\
      all_loaded tun (json_describes atof) (map (fun v => fst (fst v)) vs) (jiter jp) s s' /\
      forall n z k, In ((n, z), Some k) vs -> exists z' k', In ((n, z'), Some k') vs /\ evidence_loaded n k' s'.
  Proof.
    intros h top s e tun next j s' Hb R E Q. pose proof (rreach_inv h top any s Hb R) as I. rewrite import_json_doc in Q.
    destruct (let* jv := jindex j "Variables" in rfold import_variable (jiter jv) (mkIV next [] [])) as [st| | | |] eqn:EV; cbn [lift obind] in Q; try discriminate Q.
    pose proof (json_variables True next j (or_intror Logic.I)) as V. rewrite EV in V. cbn [rd] in V.
    apply rbind_ok in EV as (jv & E1 & E2). apply jindex_ok in E1.
    destruct (variables_ok import_variable json_variable_is json_evidence json_step_ok _ _ [] _ (ivread_nil next) E2) as (vs & F & A1 & A2 & A3 & A4 & A5). cbn [app] in *.
    pose proof (fun X => run_doc_ret (iv_vars st) e tun _ (iv_ev st) s s' E I X A3 Q) as RD. destruct RD as (ps & EP & EN & EL & LD).
    { eapply rd_bind. apply (index_try True j "Potentials"). auto. intros jp _ P. cbn [rd]. apply Forall_forall. intros r Jr. apply in_map_iff in Jr as (p & <- & Jp). apply (json_potential atof True e E (iv_vars st)); [apply V|auto]. }
    apply rbind_ok in EP as (jp & E3 & EP). apply jindex_ok in E3. injection EP as EP. apply f2_ok in EP.
    assert (DS : exists ds, Forall2 (json_describes atof) (jiter jp) ds /\ Forall2 fits ds ps).
    { clear - EP E V. induction EP as [|x p l m Q F IH]. exists []; split; constructor. destruct IH as (ds & F1 & F2). destruct (json_potential_ok atof e (iv_vars st) x p E (proj1 V) Q) as (d & D1 & D2). exists (d :: ds). split; constructor; auto. }
    destruct DS as (ds & D1 & D2). destruct (LD ds D2) as (fs & L1 & L2). exists jv, jp, vs. split; auto. split; auto. split; auto. split; auto. split.
    - exists ds, fs. split; auto. split; auto. eapply names_known; eauto.
    - intros n z k J. apply A5 in J. apply in_map_iff in J as ([n' k'] & En & J). cbn [fst] in En. subst n'. destruct (A4 n k' J) as [z' Jz]. exists z', k'. split; auto.
  Qed.
  (** The same for a xml. *)
  Theorem C61_xml : forall h top s place files prefix e tun next d s', (forall f, built (h f)) -> rreach h top any s -> env_ok e ->
    import_xml atof place files prefix e tun next d s = Ret tt s' ->
    exists vs, Forall2 (fun x v => xml_variable_is place x (fst v) /\ xml_evidence place x (snd v)) (range place (nested d) "Variable") vs /\ NoDup (map fst vs) /\
      all_loaded tun (xml_describes_factor atof place files prefix) (map (fun v => fst (fst v)) vs) (range place (nested d) "Potential") s s' /\
      forall n z k, In ((n, z), Some k) vs -> exists z' k', In ((n, z'), Some k') vs /\ evidence_loaded n k' s'.
  Proof.
    intros h top s place files prefix e tun next d s' Hb R E Q. pose proof (rreach_inv h top any s Hb R) as I. rewrite import_xml_doc in Q.
    destruct (rfold (xml_import_variable place) (range place (nested d) "Variable") (mkIV next [] [])) as [st| | | |] eqn:EV; cbn [lift obind] in Q; try discriminate Q.
    pose proof (tag_variables True next place files prefix d (or_intror Logic.I)) as V. rewrite EV in V. cbn [rd] in V.
    destruct (variables_ok (xml_import_variable place) (xml_variable_is place) (xml_evidence place) (xml_step_ok place) _ _ [] _ (ivread_nil next) EV) as (vs & F & A1 & A2 & A3 & A4 & A5). cbn [app] in *.
    pose proof (fun X => run_doc_ret (iv_vars st) e tun _ (iv_ev st) s s' E I X A3 Q) as RD. destruct RD as (ps & EP & EN & EL & LD).
    { cbn [rd]. apply Forall_forall. intros r Jr. apply in_map_iff in Jr as (p & <- & Jp). apply (tag_potential atof True place files prefix e E (iv_vars st)); [apply V|auto]. }
    injection EP as EP. apply f2_ok in EP.
    assert (DS : exists ds, Forall2 (xml_describes_factor atof place files prefix) (range place (nested d) "Potential") ds /\ Forall2 fits ds ps).
    { clear - EP E V. induction EP as [|x p l m Q F IH]. exists []; split; constructor. destruct IH as (ds & F1 & F2). destruct (xml_potential_ok atof place files prefix e (iv_vars st) x p E (proj1 V) Q) as (y & D1 & D2). exists (y :: ds). split; constructor; auto. }
    destruct DS as (ds & D1 & D2). destruct (LD ds D2) as (fs & L1 & L2). exists vs. split; auto. split; auto. split.
    - exists ds, fs. split; auto. split; auto. eapply names_known; eauto.
    - intros n z k J. apply A5 in J. apply in_map_iff in J as ([n' k'] & En & J). cbn [fst] in En. subst n'. destruct (A4 n k' J) as [z' Jz]. exists z', k'. split; auto.
  Qed.

  (** What is refused: the import of a json that gives twice the same name and size, or
      a factor on a name that is not among the variables, does not return. *)
  Lemma json_text_fun x n t u : json_text x n t -> json_text x n u -> t = u.
  Proof. intros (a & A1 & A2) (b & B1 & B2). congruence. Qed.
  Lemma json_texts_fun x l m : json_texts x l -> json_texts x m -> l = m.
  Proof.
    unfold json_texts. intros F. revert m. induction F as [|a t l l' (y & -> & ->) F IH]; intros m G; inversion G as [|? u ? m' (z & E1 & E2) G']; subst; auto. injection E1 as <-. f_equal. auto.
  Qed.
  Lemma json_variable_fun x v w : json_variable_is x v -> json_variable_is x w -> v = w.
  Proof.
    intros (A1 & t & A2 & A3) (B1 & u & B2 & B3). pose proof (json_text_fun _ _ _ _ A1 B1). pose proof (json_text_fun _ _ _ _ A2 B2). subst u. destruct v, w. cbn [fst snd] in *. congruence.
  Qed.
  Lemma f2_at {A B} (P : A -> B -> Prop) l m i a : Forall2 P l m -> nth_error l i = Some a -> exists b, nth_error m i = Some b /\ P a b.
  Proof. intros F. revert i. induction F as [|x y l m Pxy F IH]; intros [|i] E; try discriminate E; cbn [nth_error] in *; eauto. injection E as <-. eauto. Qed.
  Lemma f2_in {A B} (P : A -> B -> Prop) l m a : Forall2 P l m -> In a l -> exists b, In b m /\ P a b.
  Proof. intros F J. apply In_nth_error in J as [i E]. destruct (f2_at P l m i a F E) as (b & E' & Pb). exists b. split; auto. eapply nth_error_In; eauto. Qed.
  Theorem C61_json_rejects : forall h top s e tun next j, (forall f, built (h f)) -> rreach h top any s -> env_ok e ->
    (exists jv i k x y v, try_access j "Variables" = Some jv /\ i <> k /\ nth_error (jiter jv) i = Some x /\ nth_error (jiter jv) k = Some y /\ json_variable_is x v /\ json_variable_is y v) \/
    (exists jp p jg l n, try_access j "Potentials" = Some jp /\ In p (jiter jp) /\ try_access p "Variables" = Some jg /\ json_texts jg l /\ In n l /\ ~ describes j n) ->
    forall s', import_json atof e tun next j s <> Ret tt s'.
  Proof.
    intros h top s e tun next j Hb R E X s' Q. destruct (C61_json h top s e tun next j s' Hb R E Q) as (jv & jp & vs & E1 & E2 & F & ND & (ds & fs & D1 & D2 & _) & _). destruct X as [X|X].
    - destruct X as (jv' & i & k & x & y & v & A1 & A2 & A3 & A4 & A5 & A6). assert (jv' = jv) by congruence. subst jv'.
      destruct (f2_at _ _ _ _ _ F A3) as (a & Ea & Ia & _). destruct (f2_at _ _ _ _ _ F A4) as (b & Eb & Ib & _). pose proof (json_variable_fun _ _ _ Ia A5) as Fa. pose proof (json_variable_fun _ _ _ Ib A6) as Fb.
      apply A2. apply (proj1 (NoDup_nth_error (map fst vs)) ND). { rewrite map_length. apply nth_error_Some. congruence. } rewrite !nth_error_map, Ea, Eb. cbn [option_map]. congruence.
    - destruct X as (jp' & p & jg & l & n & A1 & A2 & A3 & A4 & A5 & A6). assert (jp' = jp) by congruence. subst jp'. apply A6.
      destruct (f2_in _ _ _ _ D1 A2) as (d & Jd & [(jg' & B1 & B2) _ _ _]). assert (jg' = jg) by congruence. subst jg'. pose proof (json_texts_fun _ _ _ A4 B2). subst l.
      rewrite Forall_forall in D2. apply (D2 d Jd) in A5. apply in_map_iff in A5 as (v & <- & Jv). apply In_nth_error in Jv as [i Ei].
      assert (Y : exists x, In x (jiter jv) /\ json_variable_is x (fst v)).
      { clear - F Ei. revert i Ei. induction F as [|x y l m [Pxy _] F IH]; intros [|i] Q; try discriminate Q; cbn [nth_error] in Q. injection Q as <-. exists x. split; auto. left; auto. destruct (IH i Q) as (z & J & Z). exists z. split; auto. right; auto. }
      destruct Y as (x & Jx & (t & T1 & T2) & _). exists jv, x, t. auto.
  Qed.
  Lemma xml_variable_fun place x v w : xml_variable_is place x v -> xml_variable_is place x w -> v = w.
  Proof. intros (A1 & t & A2 & A3) (B1 & u & B2 & B3). assert (u = t) by congruence. subst u. destruct v, w. cbn [fst snd] in *. congruence. Qed.
  Theorem C61_xml_rejects : forall h top s place files prefix e tun next d, (forall f, built (h f)) -> rreach h top any s -> env_ok e ->
    (exists i k x y v, i <> k /\ nth_error (range place (nested d) "Variable") i = Some x /\ nth_error (range place (nested d) "Variable") k = Some y /\ xml_variable_is place x v /\ xml_variable_is place y v) \/
    (exists p n, In p (range place (nested d) "Potential") /\ In n (range place (attributes p) "var") /\ ~ xml_describes place d n) ->
    forall s', import_xml atof place files prefix e tun next d s <> Ret tt s'.
  Proof.
    intros h top s place files prefix e tun next d Hb R E X s' Q. destruct (C61_xml h top s place files prefix e tun next d s' Hb R E Q) as (vs & F & ND & (ds & fs & D1 & D2 & _) & _). destruct X as [X|X].
    - destruct X as (i & k & x & y & v & A2 & A3 & A4 & A5 & A6).
      destruct (f2_at _ _ _ _ _ F A3) as (a & Ea & Ia & _). destruct (f2_at _ _ _ _ _ F A4) as (b & Eb & Ib & _). pose proof (xml_variable_fun _ _ _ _ Ia A5) as Fa. pose proof (xml_variable_fun _ _ _ _ Ib A6) as Fb.
      apply A2. apply (proj1 (NoDup_nth_error (map fst vs)) ND). { rewrite map_length. apply nth_error_Some. congruence. } rewrite !nth_error_map, Ea, Eb. cbn [option_map]. congruence.
    - destruct X as (p & n & A2 & A5 & A6). apply A6.
      destruct (f2_in _ _ _ _ D1 A2) as (y & Jd & [B1 _ _ _]). rewrite <- B1 in A5.
      rewrite Forall_forall in D2. apply (D2 y Jd) in A5. apply in_map_iff in A5 as (v & <- & Jv). apply In_nth_error in Jv as [i Ei].
      assert (Y : exists x, In x (range place (nested d) "Variable") /\ xml_variable_is place x (fst v)).
      { clear - F Ei. revert i Ei. induction F as [|x z l m [Pxy _] F IH]; intros [|i] Q; try discriminate Q; cbn [nth_error] in Q. injection Q as <-. exists x. split; auto. left; auto. destruct (IH i Q) as (w & J & Z). exists w. split; auto. right; auto. }
      destruct Y as (x & Jx & T1 & _). exists x. auto.
  Qed.
End P.

(** {1 Examples} *)
(** the document of two factors; the first one is tunable, with a weight of its own *)
Example C61_json_example : exists d1 d2 f1 f2 : _, json_describes read6 (JObj [("Variables", JArr [JStr "X"; JStr "Y"]); ("Correlation", JStr "T"); ("weight", JStr "2.000000"); ("tunability", JStr "Y")])%string d1 /\
  d_names d1 = ["X"; "Y"]%string /\ d_names d2 = ["X"]%string /\ loaded true (state_of more_state) d1 f1 /\ loaded true (state_of more_state) d2 f2 /\ In f1 (r_tun (state_of more_state)) /\ In f2 (r_const (state_of more_state)) /\
  evidence_loaded "Y" 1 (state_of more_state).
Proof.
  pose proof (returns_state more_state (proj1 two_more_imported)) as Q.
  assert (RC : rreach gH 6 any rsafe_state) by (apply (rreach_mono gH 6 rsafe); [intros; exact Logic.I|exact rsafe_reach]).
  destruct (C61_json read6 gH 6 rsafe_state env_id true 40 two_more _ gH_built RC env_id_ok Q) as (jv & jp & vs & E1 & E2 & F & ND & (ds & fs & D1 & D2 & L & P) & EV).
  vm_compute in E1, E2. injection E1 as <-. injection E2 as <-. cbn [jiter] in D1, F.
  inversion D1 as [|? d1 ? ds1 X1 D1']; subst. inversion D1' as [|? d2 ? ds2 X2 D1'']; subst. inversion D1''; subst. inversion L as [|? f1 ? fs1 L1 L']; subst. inversion L' as [|? f2 ? fs2 L2 L'']; subst.
  assert (N1 : d_names d1 = ["X"; "Y"]%string). { destruct (jd_names _ _ _ X1) as (jg & G1 & G2). vm_compute in G1. injection G1 as <-. eapply json_texts_fun; [exact G2|]. constructor; [eexists; split; reflexivity|]. constructor; [eexists; split; reflexivity|]. constructor. }
  assert (N2 : d_names d2 = ["X"]%string). { destruct (jd_names _ _ _ X2) as (jg & G1 & G2). vm_compute in G1. injection G1 as <-. eapply json_texts_fun; [exact G2|]. constructor; [eexists; split; reflexivity|]. constructor. }
  exists d1, d2, f1, f2. split; [exact X1|]. split; [exact N1|]. split; [exact N2|]. split; [exact L1|]. split; [exact L2|]. split; [|split].
  - apply (l_tun _ _ _ _ L1). pose proof (jd_weight _ _ _ X1) as W. cbn [try_access jmember] in W. destruct W as (t & _ & _ & W). apply (proj2 W). exists "Y"%string. split; reflexivity.
  - apply (l_const _ _ _ _ L2). pose proof (jd_weight _ _ _ X2) as W. destruct W as [_ W]. rewrite W. reflexivity.
  - inversion F as [|? v1 ? vs1 [V1 V1e] F']; subst. inversion F' as [|? v2 ? vs2 [V2 V2e] F'']; subst. inversion F''; subst.
    assert (K2 : v2 = (("Y"%string, 2), Some 1)).
    { destruct v2 as [k2 o2]. cbn [fst snd] in *. assert (k2 = ("Y"%string, 2)). { eapply json_variable_fun; [exact V2|]. split. exists "Y"%string; split; reflexivity. exists "2"%string. split. exists "2"%string; split; reflexivity. reflexivity. }
      subst k2. destruct o2 as [k|]. 2:{ discriminate V2e. } destruct V2e as (t & (u & T1 & T2) & T3). vm_compute in T1. injection T1 as <-. subst t. vm_compute in T3. injection T3 as <-. reflexivity. }
    assert (K1 : fst v1 = ("X"%string, 2)). { eapply json_variable_fun; [exact V1|]. split. exists "X"%string; split; reflexivity. exists "2"%string. split. exists "2"%string; split; reflexivity. reflexivity. }
    subst v2. destruct (EV "Y"%string 2 1) as (z' & k' & J & EL). right; left; reflexivity. destruct J as [J|[J|[]]].
    + exfalso. rewrite J in K1. discriminate K1.
    + injection J as <- <-. exact EL.
Qed.
(** the same variable twice, and a factor on an unknown variable *)
Example C61_rejects_example : rreach gH 6 any rsafe_state /\
  (exists s', import_json read6 env_id true 40 half rsafe_state = Thr s') /\ ~ describes half "Z".
Proof.
  split; [apply (rreach_mono gH 6 rsafe); [intros; exact Logic.I|exact rsafe_reach]|]. split.
  - exists (state_of half_state). apply threw_state. vm_compute. reflexivity.
  - intros (v & x & t & Q & J & T & E). vm_compute in Q. injection Q as <-. cbn [jiter] in J. destruct J as [<-|[]]. vm_compute in T. injection T as <-. discriminate E.
Qed.
Example C61_xml_example : exists s', import_xml read6 at_end table_file "." env_id true 40 two_more_tag rsafe_state = Ret tt s' /\
  (exists vs, all_loaded true (xml_describes_factor read6 at_end table_file ".") vs (range at_end (nested two_more_tag) "Potential") rsafe_state s') /\
  length (range at_end (nested two_more_tag) "Potential") = 2.
Proof.
  pose proof (returns_state more_tag (proj1 two_more_tag_imported)) as Q. exists (state_of more_tag). split; [exact Q|].
  assert (RC : rreach gH 6 any rsafe_state) by (apply (rreach_mono gH 6 rsafe); [intros; exact Logic.I|exact rsafe_reach]).
  destruct (C61_xml read6 gH 6 rsafe_state at_end table_file "." env_id true 40 two_more_tag _ gH_built RC env_id_ok Q) as (vs & _ & _ & L & _). split; [eexists; exact L|reflexivity].
Qed.

Print Assumptions C61_json.
Print Assumptions C61_xml.
Print Assumptions C61_json_rejects.
Print Assumptions C61_xml_rejects.
