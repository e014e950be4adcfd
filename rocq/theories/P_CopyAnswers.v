(** Property C46, seen by the user who asks queries: the most probable values and the
    joint distributions returned by a copy are those of the source; and the training
    sets of the source, which are not those of a copy or of a model read from a file. *)
From Coq Require Import String List Arith Bool Lia Permutation Relations Qcanon.
From Verif Require Import Res Num Categoric Combs Func FuncProofs GroupProofs FactorProofs FactorApi Special SpecialProofs
  Graph GraphLemmas Clusters Belief Query GraphInv EvidInv BeliefInv BigOp GraphSpec Hist P_Graph BeliefSpec JointSpec Sums BeliefHist
  Rebuild Train TrainHist Coherent TrainInv P_Categoric P_Factor Demo BeliefDemo TrainDemo P_Train P_Gradient P_GradientDemo P_Joint Separate FieldHist P_Field Plan CopyProofs P_Copy
  IO TextSpec TextProofs Json JsonRead JsonProofs P_Json Xml XmlProofs P_Xml P_FilesAnswers.
Import ListNotations.
Open Scope nat_scope.

Section P.
  Context {N : num} (OK : num_ok N).
  Notation rst := (rst (N:=N)).
  Implicit Types s src : rst.
  Notation same := (fun v : var => v).

  (** what a copy and its source have in common, the variables being the same *)
  Lemma copy_parts h top src e copy : (forall f, built (h f)) -> rreach h top (careful False) src -> env_ok e ->
    no_lone_variable src -> all_listed src -> clear_sharing src ->
    exists s, rf_absorb e src copy (r_empty (r_h src) (r_top src)) = Ret tt s /\ rreach (r_h src) (r_top src) alert s /\ (forall f, built (r_h src f)) /\
      goods (r_h src) /\ NoDup (sp_vars (contents src)) /\ NoDup (sp_vars (contents s)) /\
      (forall f, In f (sp_facs (contents src)) -> incl (f_vars (r_h src f)) (sp_vars (contents src))) /\
      (forall f, In f (sp_facs (contents s)) -> incl (f_vars (r_h s f)) (sp_vars (contents s))) /\
      Permutation (sp_vars (contents src)) (sp_vars (contents s)) /\
      (forall v, In v (sp_vars (contents src)) -> sp_evidence (contents s) v = sp_evidence (contents src) v) /\
      exists l, Permutation (sp_facs (contents src)) l /\ Forall2 (stands_for (r_h src) (r_h s)) l (sp_facs (contents s)).
  Proof.
    intros Hb R E NL AL CL. pose proof (rreach_coh False h top src Hb R) as CS.
    destruct (C46_field_partial h top src e copy Hb R E NL AL CL) as (s & Q & SC & _ & _ & _ & _ & _ & RA).
    pose proof (ri_built _ (ch_r _ _ CS)) as HB'. pose proof (fl_coh _ _ (proj1 (rreach_current OK _ _ s HB' RA))) as C.
    destruct (content_parts OK _ _ _ _ CS C SC) as (G & ND & FV & PV & EV & l & PL & TW).
    exists s. split; [exact Q|]. split; [exact RA|]. split; [exact HB'|]. split; [exact G|]. split; [exact ND|].
    split. { eapply Permutation_NoDup; eauto. }
    split; [exact FV|]. split. { intros f J v Jv. eapply (CopyProofs.src_vars_in True s C f v); auto. }
    split; [exact PV|]. split; [exact EV|]. exists l. split; [exact PL|exact TW].
  Qed.

  (** [getMAP] on a copy: the smallest value the variable has in the most probable
      assignments of the source. *)
  Theorem C46_map_answers_partial : forall h top src e copy e' n v, (forall f, built (h f)) -> rreach h top (careful False) src -> env_ok e -> env_ok e' -> 1 <= n ->
    no_lone_variable src -> all_listed src -> clear_sharing src ->
    symmetric (r_h src) (contents src) -> above_floor (r_h src) (contents src) -> positive (weight (r_h src) (contents src)) (contents src) ->
    hidden (contents src) v -> tree_around (r_h src) (contents src) v ->
    exists s j g, rf_absorb e src copy (r_empty (r_h src) (r_top src)) = Ret tt s /\ get_map (r_h s) e' v n (r_g s) = Ret j g /\
      (exists x, most_probable (weight (r_h src) (contents src)) (contents src) x /\ val x v = j) /\
      (forall x, most_probable (weight (r_h src) (contents src)) (contents src) x -> j <= val x v).
  Proof.
    intros h top src e copy e' n v Hb R E E' L NL AL CL SY AF PO Hv T.
    destruct (copy_parts h top src e copy Hb R E NL AL CL) as (s & Q & RA & HB & G & ND & ND' & FV & FV' & PV & EV & l & PL & TW).
    pose proof (proj1 Hv) as Jv.
    assert (PV' : Permutation (map same (sp_vars (contents src))) (sp_vars (contents s))) by (rewrite map_id; exact PV).
    assert (TW' : Forall2 (fun f k => f_vars (r_h s k) = map same (f_vars (r_h src f)) /\ forall c, valid_comb (fsizes (r_h src f)) c -> fval (r_h s k) c = fval (r_h src f) c) l (sp_facs (contents s))).
    { eapply F2_mono; [|exact TW]. intros f k _ _ [X V]. rewrite map_id. split; auto. }
    destruct (C49_map_partial OK (r_h src) (r_top src) s e' n v HB RA E' L) as (j & g & Qg & (x' & Mx' & Vx') & Lx').
    - eapply twins_symmetric; eauto.
    - eapply twins_floor; eauto.
    - eapply (twins_positive OK (r_h src) (r_h s) (contents src) (contents s) l); eauto.
    - eapply twins_hidden; eauto.
    - eapply twins_tree; eauto.
    - assert (RS : forall w, In w (sp_vars (contents src)) -> vsize (same w) = vsize w) by auto.
      assert (RI : forall u w, In u (sp_vars (contents src)) -> In w (sp_vars (contents src)) -> same u = same w -> u = w) by auto.
      exists s, j, g. split; [exact Q|]. split; [exact Qg|]. split.
      + destruct (co_back same (contents src) (contents s) ND' RS PV' x' (proj1 (proj1 Mx'))) as (x & Ix & CO). exists x. split.
        * apply (rn_best OK same (r_h src) (r_h s) (contents src) (contents s) l ND ND' FV RS RI PV' EV PL TW' x x' CO Ix (proj1 (proj1 Mx'))). exact Mx'.
        * rewrite <- (CO v Jv). exact Vx'.
      + intros x Mx. destruct (co_there same (contents src) (contents s) ND RS RI PV' x (proj1 (proj1 Mx))) as (y & Iy & CO). rewrite <- (CO v Jv). apply Lx'.
        apply (rn_best OK same (r_h src) (r_h s) (contents src) (contents s) l ND ND' FV RS RI PV' EV PL TW' x y CO (proj1 (proj1 Mx)) Iy). exact Mx.
  Qed.

  (** [getJointMarginalDistribution] on a copy: proportional to the probabilities the
      source gives to the combinations. *)
  Theorem C46_joint_answers_partial : forall h top src e copy e' n vs, (forall f, built (h f)) -> rreach h top (careful False) src -> env_ok e -> env_ok e' -> 1 <= n ->
    no_lone_variable src -> all_listed src -> clear_sharing src ->
    symmetric (r_h src) (contents src) -> positive (weight (r_h src) (contents src)) (contents src) ->
    NoDup (map vkey vs) -> asked (r_h src) (contents src) vs ->
    exists s f g, rf_absorb e src copy (r_empty (r_h src) (r_top src)) = Ret tt s /\ get_joint (r_h s) e' (mkGroup vs vs) n (r_g s) = Ret f g /\
      f_vars f = vs /\ exists c, (n0 < c)%num /\ forall k, valid_comb (map vsize vs) k ->
        fval f k = (c * mass (weight (r_h src) (contents src)) (contents src) (takes_all vs k))%num.
  Proof.
    intros h top src e copy e' n vs Hb R E E' L NL AL CL SY PO NK (NE & NV & I & T & JI & OO).
    destruct (copy_parts h top src e copy Hb R E NL AL CL) as (s & Q & RA & HB & G & ND & ND' & FV & FV' & PV & EV & l & PL & TW).
    assert (PV' : Permutation (map same (sp_vars (contents src))) (sp_vars (contents s))) by (rewrite map_id; exact PV).
    assert (TW' : Forall2 (fun f k => f_vars (r_h s k) = map same (f_vars (r_h src f)) /\ forall c, valid_comb (fsizes (r_h src f)) c -> fval (r_h s k) c = fval (r_h src f) c) l (sp_facs (contents s))).
    { eapply F2_mono; [|exact TW]. intros f k _ _ [X V]. rewrite map_id. split; auto. }
    assert (RI : forall u w, In u (sp_vars (contents src)) -> In w (sp_vars (contents src)) -> same u = same w -> u = w) by auto.
    destruct (C49_joint_partial OK (r_h src) (r_top src) s e' n (mkGroup vs vs) HB RA E' L) as (f & g & Qg & V & c & Pc & W); cbn [g_soup] in *.
    - eapply twins_symmetric; eauto.
    - eapply (twins_positive OK (r_h src) (r_h s) (contents src) (contents s) l); eauto.
    - split; [split; [exact NK|apply Permutation_refl]|]. split; [exact NE|]. split.
      + intros v J. eapply Permutation_in; [exact PV|]. apply I; auto.
      + intros v J Hv. eapply (twins_tree (r_h src) (r_h s) (contents src) (contents s) l); eauto. apply T; auto. apply (twins_hidden (contents src) (contents s) PV EV); auto.
    - rewrite <- (map_id vs). eapply (rn_inside same (r_h src) (r_h s) (contents src) (contents s) l); eauto.
    - rewrite <- (map_id vs). apply (rn_observed same (contents src) (contents s) EV vs I OO).
    - exists s, f, g. split; [exact Q|]. split; [exact Qg|]. split; [exact V|]. exists c. split; [exact Pc|]. intros k VK. rewrite (W k VK). f_equal.
      eapply (twins_mass OK (r_h src) (r_h s) (contents src) (contents s) l); eauto. intros x y Z. unfold takes_all. replace (map (val y) vs) with (map (val x) vs); auto. apply map_ext_in. intros w J. apply Z. auto.
  Qed.
End P.

(** {1 Examples} *)
Example C46_map_answers_example : exists s j g, rf_absorb env_rev field_state true (r_empty (r_h field_state) (r_top field_state)) = Ret tt s /\
  get_map (r_h s) env_id exC 2 (r_g s) = Ret j g /\
  exists x, most_probable (weight (r_h field_state) (contents field_state)) (contents field_state) x /\ val x exC = j.
Proof.
  destruct (C46_map_answers_partial QcNum_ok gH 6 field_state env_rev true env_id 2 exC gH_built (alert_careful _ _ _ field_reach) env_rev_ok env_id_ok (le_S _ _ (le_n 1))
    field_lone field_listed field_clear field_symmetric field_floor field_positive field_hidden (field_tree exC)) as (s & j & g & Q1 & Q2 & M & _).
  exists s, j, g. split; [exact Q1|]. split; [exact Q2|exact M].
Qed.
Example C46_joint_answers_example : exists s f g, rf_absorb env_rev field_state false (r_empty (r_h field_state) (r_top field_state)) = Ret tt s /\
  get_joint (r_h s) env_id (mkGroup [exA; exC] [exA; exC]) 2 (r_g s) = Ret f g /\ f_vars f = [exA; exC].
Proof.
  destruct (C46_joint_answers_partial QcNum_ok gH 6 field_state env_rev false env_id 2 [exA; exC] gH_built (alert_careful _ _ _ field_reach) env_rev_ok env_id_ok (le_S _ _ (le_n 1))
    field_lone field_listed field_clear field_symmetric field_positive) as (s & f & g & Q1 & Q2 & Q3 & _).
  - constructor. intros [Q|[]]. inversion Q. constructor. intros []. constructor.
  - exact field_asked.
  - exists s, f, g. split; [exact Q1|]. split; [exact Q2|exact Q3].
Qed.

Print Assumptions C46_map_answers_partial.
Print Assumptions C46_joint_answers_partial.

(** {1 Training sets}

    The values of a sample are listed in the order of [getAllVariables]. The copy
    inserts the constant factors before the tunable ones, so its variables may be in
    another order: a training set of the source gives another gradient in the copy. *)
Notation turned := (rruns (r_empty gH 6) [RTun (Some 1) None; RConst (Some 2)]).
Definition list_of (o : out (rst (N:=QcNum)) (list QcNum)) : list QcNum := match o with Ret l _ => l | _ => [] end.
Lemma ranswers_same o l : ranswers o l = true -> exists s', o = Ret l s'.
Proof.
  destruct o as [l0 s0| | | |]; try discriminate. cbn [ranswers]. intros Q. exists s0. f_equal. apply andb_true_iff in Q. destruct Q as [L F].
  apply Nat.eqb_eq in L. revert l L F. induction l0 as [|x l0 IH]; intros [|y l] L F; try discriminate L; [reflexivity|].
  cbn [combine forallb fst snd] in F. apply andb_true_iff in F. destruct F as [F1 F2]. f_equal.
  - exact (proj1 (ok_eqb QcNum QcNum_ok x y) F1).
  - apply IH; [injection L as L; exact L|exact F2].
Qed.
Lemma list_returned o : negb (rthrew o) && rdone o = true -> o = Ret (list_of o) (state_of o).
Proof. destruct o; intros Q; try discriminate Q; reflexivity. Qed.
Notation turned_set := (mkTI [[0; 0; 1]] None).
Notation turned_gradient := (weights_gradient env_id turned_set 1 turned).
Lemma turned_reach : rreach gH 6 alert turned.
Proof. apply rruns_alert. constructor. vm_compute. reflexivity. Qed.
Lemma turned_lone : no_lone_variable turned.
Proof. apply no_lone_variableb_ok. vm_compute. reflexivity. Qed.
Lemma turned_listed : all_listed turned.
Proof. apply all_listedb_ok. vm_compute. reflexivity. Qed.
Lemma turned_clear : clear_sharing turned.
Proof. apply (clearb_ok QcNum_ok). exact (ri_built _ (rreach_inv _ _ _ _ gH_built turned_reach)). vm_compute. reflexivity. Qed.
Theorem C46_training_set_refuted : exists src s it g g' t t', rreach gH 6 alert src /\ no_lone_variable src /\ all_listed src /\ clear_sharing src /\
  rf_absorb env_id src true (r_empty (r_h src) (r_top src)) = Ret tt s /\ same_content src s /\
  map vname (g_vars (r_g src)) = ["C"; "D"; "A"]%string /\ map vname (g_vars (r_g s)) = ["A"; "C"; "D"]%string /\
  weights_gradient env_id it 1 src = Ret g t /\ weights_gradient env_id it 1 s = Ret g' t' /\ g' <> g /\
  exists t'', weights_gradient env_id (mkTI (map (fun v => [nth 2 v 0; nth 0 v 0; nth 1 v 0]) (ti_combs it)) (ti_subset it)) 1 s = Ret g t''.
Proof.
  destruct (C46_field_partial gH 6 turned env_id true gH_built (alert_careful _ _ _ turned_reach) env_id_ok turned_lone turned_listed turned_clear) as (s & Q & SC & _).
  assert (Es : s = state_of (rf_absorb env_id turned true (r_empty (r_h turned) (r_top turned)))) by (rewrite Q; reflexivity).
  assert (D : exists g' t', weights_gradient env_id turned_set 1 s = Ret g' t' /\ g' <> list_of turned_gradient).
  { rewrite Es. apply ranswers_different; vm_compute; reflexivity. }
  destruct D as (g' & t' & D1 & D2).
  exists turned, s, turned_set, (list_of turned_gradient), g', (state_of turned_gradient), t'.
  split; [exact turned_reach|]. split; [exact turned_lone|]. split; [exact turned_listed|]. split; [exact turned_clear|]. split; [exact Q|]. split; [exact SC|].
  split; [vm_compute; reflexivity|]. split; [rewrite Es; vm_compute; reflexivity|].
  split; [apply list_returned; vm_compute; reflexivity|]. split; [exact D1|]. split; [exact D2|].
  rewrite Es. apply ranswers_same. vm_compute. reflexivity.
Qed.
Print Assumptions C46_training_set_refuted.
(** The files list the constant factors first as well: the model read from the
    json or the xml has the variables in the order of the copy. *)
Notation turned_json := (import_json read6 env_id true 40 (text_of turned) (r_empty gH 6)).
Theorem C45_training_set_refuted : exists src j s it g g' t t', rreach gH 6 alert src /\ printable src /\ no_lone_variable src /\ all_listed src /\ clear_sharing src /\
  export_json print6 env_id true src = Ok j /\ import_json read6 env_id true 40 j (r_empty gH 6) = Ret tt s /\
  map vname (g_vars (r_g src)) = ["C"; "D"; "A"]%string /\ map vname (g_vars (r_g s)) = ["A"; "C"; "D"]%string /\
  weights_gradient env_id it 1 src = Ret g t /\ weights_gradient env_id it 1 s = Ret g' t' /\ g' <> g /\
  exists t'', weights_gradient env_id (mkTI (map (fun v => [nth 2 v 0; nth 0 v 0; nth 1 v 0]) (ti_combs it)) (ti_subset it)) 1 s = Ret g t''.
Proof.
  set (s := state_of turned_json).
  assert (D : exists g' t', weights_gradient env_id turned_set 1 s = Ret g' t' /\ g' <> list_of turned_gradient).
  { apply ranswers_different; vm_compute; reflexivity. }
  destruct D as (g' & t' & D1 & D2).
  exists turned, (text_of turned), s, turned_set, (list_of turned_gradient), g', (state_of turned_gradient), t'.
  split; [exact turned_reach|]. split; [apply printableb_ok; vm_compute; reflexivity|]. split; [exact turned_lone|]. split; [exact turned_listed|]. split; [exact turned_clear|].
  split; [apply printed_text; vm_compute; reflexivity|]. split; [apply returns_state; vm_compute; reflexivity|].
  split; [vm_compute; reflexivity|]. split; [vm_compute; reflexivity|].
  split; [apply list_returned; vm_compute; reflexivity|]. split; [exact D1|]. split; [exact D2|].
  apply ranswers_same. vm_compute. reflexivity.
Qed.
Print Assumptions C45_training_set_refuted.
Notation turned_xml := (import_xml read6 at_front no_file "" env_id true 40 (again at_front (xml_of turned)) (r_empty gH 6)).
Theorem C53_training_set_refuted : exists src x x' s it g g' t t', rreach gH 6 alert src /\ printable src /\ no_lone_variable src /\ all_listed src /\ clear_sharing src /\
  export_xml print6 env_id true src = Ok x /\ reads at_front x x' /\ import_xml read6 at_front no_file "" env_id true 40 x' (r_empty gH 6) = Ret tt s /\
  map vname (g_vars (r_g src)) = ["C"; "D"; "A"]%string /\ map vname (g_vars (r_g s)) = ["A"; "C"; "D"]%string /\
  weights_gradient env_id it 1 src = Ret g t /\ weights_gradient env_id it 1 s = Ret g' t' /\ g' <> g /\
  exists t'', weights_gradient env_id (mkTI (map (fun v => [nth 2 v 0; nth 0 v 0; nth 1 v 0]) (ti_combs it)) (ti_subset it)) 1 s = Ret g t''.
Proof.
  set (s := state_of turned_xml).
  assert (D : exists g' t', weights_gradient env_id turned_set 1 s = Ret g' t' /\ g' <> list_of turned_gradient).
  { apply ranswers_different; vm_compute; reflexivity. }
  destruct D as (g' & t' & D1 & D2).
  exists turned, (xml_of turned), (again at_front (xml_of turned)), s, turned_set, (list_of turned_gradient), g', (state_of turned_gradient), t'.
  split; [exact turned_reach|]. split; [apply printableb_ok; vm_compute; reflexivity|]. split; [exact turned_lone|]. split; [exact turned_listed|]. split; [exact turned_clear|].
  split; [apply xprinted_text; vm_compute; reflexivity|]. split; [apply front_reads|]. split; [apply returns_state; vm_compute; reflexivity|].
  split; [vm_compute; reflexivity|]. split; [vm_compute; reflexivity|].
  split; [apply list_returned; vm_compute; reflexivity|]. split; [exact D1|]. split; [exact D2|].
  apply ranswers_same. vm_compute. reflexivity.
Qed.
Print Assumptions C53_training_set_refuted.
