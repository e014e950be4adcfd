(** Property C60: what is not linked to a variable does not change its distribution *)
From Coq Require Import Ascii String List Arith ZArith QArith Qcanon Bool Lia Permutation Relations.
From Verif Require Import Res Num Categoric Combs Func FuncProofs GroupProofs FactorProofs FactorApi Special Graph GraphLemmas GraphInv BigOp Sums GraphSpec Hist BeliefSpec Belief Query Train TrainHist Coherent TrainInv FieldHist
  Rebuild IO Json Xml ImportSpec Import SeparateSpec Separate P_Categoric P_Factor Demo BeliefDemo TrainDemo P_Train JointSpec P_Joint P_Gradient P_GradientDemo P_Field P_Copy P_Json P_Import.
Import ListNotations.
Open Scope nat_scope.

Section P.
  Context {N : num} (OK : num_ok N).
  Notation rst := (rst (N:=N)).
  Implicit Types s : rst.

  Lemma coh_sound s : coh False s -> sound (r_h s) (contents s).
  Proof.
    intros C. pose proof (proj1 (ch_inv _ _ C)) as CO. pose proof (coh_abs _ _ C) as AB.
    assert (AR : forall f, In f (g_all (r_g s)) -> (exists v, f_vars (r_h s f) = [v] /\ In v (g_vars (r_g s))) \/ exists v w, f_vars (r_h s f) = [v; w] /\ In v (g_vars (r_g s)) /\ In w (g_vars (r_g s))).
    { intros f J. destruct (co_fac _ _ _ CO f J) as [(v & a & E & V & _)|(v & w & a & b & c & E & V & W & _)].
      left. exists v. split; auto. eapply nth_error_In; eauto. right. exists v, w. split; auto. split; eapply nth_error_In; eauto. }
    constructor.
    - eapply NoDup_map_inv. apply (co_vars _ _ _ CO).
    - apply (ri_nd _ (ch_r _ _ C)).
    - intros f v J Jv. eapply coh_in; eauto.
    - intros f J. destruct (AR f J) as [(v & E & _)|(v & w & E & _)]; eauto.
    - intros f g J R. apply (fval_nonneg OK); [apply (coh_good OK False s C)|]. unfold valid_comb, fsizes, sizes_of. change (g_soup (f_group (r_h s f))) with (f_vars (r_h s f)). revert R. generalize (f_vars (r_h s f)) as vs. induction vs as [|a vs IH]; intros R; cbn [map]; constructor. apply R; left; auto. apply IH. intros u Ju. apply R. right; auto.
    - intros u k J E. apply In_nth_error in J as [a V]. rewrite (ev_at (r_g s) (contents s) AB a u V) in E. destruct (co_ev _ _ _ CO a k E) as (w & W & L). unfold var_at in W. change (nth_error (g_vars (r_g s)) a = Some u) in V. rewrite V in W. injection W as <-. auto.
  Qed.

  (** The probability of any event about the variables linked to [v] is the same in two
      models, with any histories, that are the same around [v]. *)
  Theorem C60_distribution : forall h top s h' top' s' v P, (forall f, built (h f)) -> (forall f, built (h' f)) ->
    rreach h top (careful False) s -> rreach h' top' (careful False) s' ->
    same_around (r_h s) (contents s) (r_h s') (contents s') v ->
    positive (weight (r_h s) (contents s)) (contents s) -> positive (weight (r_h s') (contents s')) (contents s') ->
    event_around (r_h s) (contents s) v P ->
    probability (r_h s) (contents s) P = probability (r_h s') (contents s') P.
  Proof.
    intros h top s h' top' s' v P Hb Hb' R R' SA P1 P2 EV. apply (around_probability OK) with (v := v); auto; apply coh_sound.
    apply (rreach_coh False h top s Hb R). apply (rreach_coh False h' top' s' Hb' R').
  Qed.

  (** So the answers of the queries are the same. *)
  Theorem C60_marginal_answers_partial : forall h top s h' top' s' e e' n n' v, (forall f, built (h f)) -> (forall f, built (h' f)) ->
    rreach h top alert s -> rreach h' top' alert s' -> env_ok e -> env_ok e' -> 1 <= n -> 1 <= n' ->
    same_around (r_h s) (contents s) (r_h s') (contents s') v ->
    symmetric (r_h s) (contents s) -> symmetric (r_h s') (contents s') ->
    positive (weight (r_h s) (contents s)) (contents s) -> positive (weight (r_h s') (contents s')) (contents s') ->
    tree_around (r_h s) (contents s) v ->
    exists l g g', get_marginal (r_h s) e v n (r_g s) = Ret l g /\ get_marginal (r_h s') e' v n' (r_g s') = Ret l g'.
  Proof.
    intros h top s h' top' s' e e' n n' v Hb Hb' R R' E E' L L' SA SY SY' P1 P2 T.
    pose proof (coh_sound s (rreach_coh False h top s Hb (alert_careful _ _ _ R))) as S1. pose proof (coh_sound s' (rreach_coh False h' top' s' Hb' (alert_careful _ _ _ R'))) as S2.
    pose proof (around_tree _ _ _ _ v S1 S2 SA T) as T'.
    destruct (C49_marginals_partial OK h top s e n v Hb R E L SY P1 (proj1 (sa_hidden _ _ _ _ _ SA)) T) as [g Q].
    destruct (C49_marginals_partial OK h' top' s' e' n' v Hb' R' E' L' SY' P2 (proj2 (sa_hidden _ _ _ _ _ SA)) T') as [g' Q'].
    eexists. exists g, g'. split. exact Q. rewrite Q'. f_equal. apply map_ext. intros k. symmetry.
    apply (around_probability OK) with (v := v); auto. intros x y Z. unfold takes. rewrite (Z v); auto. apply rt_refl.
  Qed.
  Theorem C60_map_answers_partial : forall h top s h' top' s' e e' n n' v, (forall f, built (h f)) -> (forall f, built (h' f)) ->
    rreach h top alert s -> rreach h' top' alert s' -> env_ok e -> env_ok e' -> 1 <= n -> 1 <= n' ->
    same_around (r_h s) (contents s) (r_h s') (contents s') v ->
    symmetric (r_h s) (contents s) -> symmetric (r_h s') (contents s') -> above_floor (r_h s) (contents s) -> above_floor (r_h s') (contents s') ->
    positive (weight (r_h s) (contents s)) (contents s) -> positive (weight (r_h s') (contents s')) (contents s') ->
    tree_around (r_h s) (contents s) v ->
    exists j g g', get_map (r_h s) e v n (r_g s) = Ret j g /\ get_map (r_h s') e' v n' (r_g s') = Ret j g'.
  Proof.
    intros h top s h' top' s' e e' n n' v Hb Hb' R R' E E' L L' SA SY SY' AF AF' P1 P2 T.
    pose proof (coh_sound s (rreach_coh False h top s Hb (alert_careful _ _ _ R))) as S1. pose proof (coh_sound s' (rreach_coh False h' top' s' Hb' (alert_careful _ _ _ R'))) as S2.
    pose proof (around_tree _ _ _ _ v S1 S2 SA T) as T'.
    destruct (C49_map_partial OK h top s e n v Hb R E L SY AF P1 (proj1 (sa_hidden _ _ _ _ _ SA)) T) as (j & g & Q & B).
    destruct (C49_map_partial OK h' top' s' e' n' v Hb' R' E' L' SY' AF' P2 (proj2 (sa_hidden _ _ _ _ _ SA)) T') as (j' & g' & Q' & B').
    assert (j = j') as <-. { eapply (around_best OK (r_h s) (contents s) (r_h s') (contents s') v); eauto. }
    exists j, g, g'. auto.
  Qed.

  Add Field psep_field : (ok_field N OK).
  Lemma edge_flip (F : nat -> func N) A v w : hidden_edge F A v w -> hidden_edge F A w v.
  Proof. intros (P & Q & f & J & X). split; auto. split; auto. exists f. split; auto. tauto. Qed.
  Lemma linked_flip (F : nat -> func N) A v w : hidden_linked F A v w -> hidden_linked F A w v.
  Proof. intros R. induction R. apply rt_step. apply edge_flip; auto. apply rt_refl. eapply rt_trans; eauto. Qed.
  Lemma tree_linked (F : nat -> func N) A v w : hidden_linked F A v w -> tree_around F A v -> tree_around F A w.
  Proof. intros R T (c & RG & L). apply T. exists c. split; auto. intros u J. eapply rt_trans; [exact R|]. apply L; auto. Qed.
  Lemma inner_linked (F : nat -> func N) A (F' : nat -> func N) A' v vs w u : sound F A -> sound F' A' -> same_around F A F' A' v -> (forall w, In w vs -> hidden_linked F A v w) ->
    clos_refl_trans var (inner_edge F A vs) w u -> clos_refl_trans var (inner_edge F' A' vs) w u.
  Proof.
    intros S S' SA K R. induction R as [a b (Q & J1 & J2)| |]. 2: apply rt_refl. 2: eapply rt_trans; eauto.
    apply rt_step. split; auto. apply (linked_edge F A F' A' v S' SA a b (K a J1)); auto. apply (linked_hidden' F A F' A' v S S' SA a); auto.
  Qed.
  Theorem C60_joint_answers_partial : forall h top s h' top' s' e e' n n' v g, (forall f, built (h f)) -> (forall f, built (h' f)) ->
    rreach h top alert s -> rreach h' top' alert s' -> env_ok e -> env_ok e' -> 1 <= n -> 1 <= n' ->
    same_around (r_h s) (contents s) (r_h s') (contents s') v ->
    symmetric (r_h s) (contents s) -> symmetric (r_h s') (contents s') ->
    positive (weight (r_h s) (contents s)) (contents s) -> positive (weight (r_h s') (contents s')) (contents s') ->
    tree_around (r_h s) (contents s) v ->
    wf_group g -> g_soup g <> [] -> (forall w, In w (g_soup g) -> hidden_linked (r_h s) (contents s) v w) -> joined_inside (r_h s) (contents s) (g_soup g) ->
    exists f f' q q', get_joint (r_h s) e g n (r_g s) = Ret f q /\ get_joint (r_h s') e' g n' (r_g s') = Ret f' q' /\
      f_vars f = g_soup g /\ f_vars f' = g_soup g /\
      exists c, (n0 < c)%num /\ forall l, valid_comb (map vsize (g_soup g)) l -> fval f' l = (c * fval f l)%num.
  Proof.
    intros h top s h' top' s' e e' n n' v g Hb Hb' R R' E E' L L' SA SY SY' P1 P2 T WG NE K JI.
    pose proof (coh_sound s (rreach_coh False h top s Hb (alert_careful _ _ _ R))) as S1. pose proof (coh_sound s' (rreach_coh False h' top' s' Hb' (alert_careful _ _ _ R'))) as S2.
    pose proof (around_tree _ _ _ _ v S1 S2 SA T) as T'.
    assert (K' : forall w, In w (g_soup g) -> hidden_linked (r_h s') (contents s') v w) by (intros w J; apply (linked_same _ _ _ _ v S1 S2 SA); auto).
    assert (HK : forall w, In w (g_soup g) -> hidden (contents s) w). { intros w J. pose proof (K w J) as Q. apply clos_rt_rtn1 in Q. destruct Q as [|y z (_ & Q & _) _]; auto. apply SA. }
    assert (HK' : forall w, In w (g_soup g) -> hidden (contents s') w) by (intros w J; apply (linked_hidden' _ _ _ _ v S1 S2 SA); auto).
    assert (OB : forall A w, hidden A w -> is_obs A w = true -> False). { intros A w [_ Q]. unfold is_obs. rewrite Q. intros X; inversion X. }
    destruct (C49_joint_partial OK h top s e n g Hb R E L SY P1) as (f & q & Q & V & c & Pc & W); auto.
    { split; auto. split; auto. split. intros w J; apply HK; auto. intros w J _. eapply tree_linked; eauto. }
    { intros a b Ja Jb Oa. exfalso. eapply OB; eauto. }
    destruct (C49_joint_partial OK h' top' s' e' n' g Hb' R' E' L' SY' P2) as (f' & q' & Q' & V' & c' & Pc' & W'); auto.
    { split; auto. split; auto. split. intros w J; apply HK'; auto. intros w J _. eapply tree_linked; eauto. }
    { intros a b Ja Jb Ra. apply (inner_linked (r_h s) (contents s) (r_h s') (contents s') v); auto. apply JI; auto. eapply rt_trans; [apply linked_flip; apply K|apply K]; auto. }
    { intros a b Ja Jb Oa. exfalso. eapply OB; eauto. }
    exists f, f', q, q'. split; auto. split; auto. split; auto. split; auto.
    pose proof (Separate.mass_pos OK _ _ S1 P1) as M1. pose proof (Separate.mass_pos OK _ _ S2 P2) as M2.
    set (m1 := mass (weight (r_h s) (contents s)) (contents s) (fun _ => true)) in *. set (m2 := mass (weight (r_h s') (contents s')) (contents s') (fun _ => true)) in *.
    exists ((c' * m2) / (c * m1))%num. split. apply (ndiv_pos OK); apply (ok_mul N OK); auto.
    intros l VL. rewrite (W l VL), (W' l VL).
    assert (X : (mass (weight (r_h s) (contents s)) (contents s) (takes_all (g_soup g) l) / m1 = mass (weight (r_h s') (contents s')) (contents s') (takes_all (g_soup g) l) / m2)%num).
    { apply (around_probability OK) with (v := v); auto. intros x y Z. unfold takes_all. replace (map (val y) (g_soup g)) with (map (val x) (g_soup g)); auto. apply map_ext_in. intros w J. apply Z. auto. }
    pose proof (nlt_neq' OK _ _ M1) as Z1. pose proof (nlt_neq' OK _ _ M2) as Z2. pose proof (nlt_neq' OK _ _ Pc) as Z3.
    set (x := mass _ _ (takes_all (g_soup g) l)) in *. set (y := mass (weight (r_h s') (contents s')) _ (takes_all (g_soup g) l)) in *.
    assert (Y : y = (x / m1 * m2)%num). { rewrite X. field. auto. } rewrite Y. field. auto.
  Qed.

  (** {1 Imports} *)
  Lemma grows_around s s' next describes observes v : coh False s -> coh False s' -> grows next describes observes s s' -> (forall w, In w (g_vars (r_g s)) -> vid w < next) ->
    (forall w, In w (g_vars (r_g s)) -> ~ observes (vname w)) -> hidden (contents s) v -> same_around (r_h s) (contents s) (r_h s') (contents s') v.
  Proof.
    intros C C' G L NO Hv. destruct (gr_vars _ _ _ _ _ G) as (lv & Ev & _). destruct (gr_facs _ _ _ _ _ G) as (lf & Ef & _). destruct (gr_objects _ _ _ _ _ G) as [_ EH].
    assert (IV : forall w, In w (g_vars (r_g s)) -> In w (g_vars (r_g s'))) by (intros w J; rewrite Ev; apply in_app_iff; auto).
    assert (IF : forall f, In f (g_all (r_g s)) -> In f (g_all (r_g s')) /\ r_h s' f = r_h s f).
    { intros f J. split. rewrite Ef; apply in_app_iff; auto. apply EH. apply (ri_top _ (ch_r _ _ C)). auto. }
    assert (EE : forall w, In w (g_vars (r_g s)) -> sp_evidence (contents s') w = sp_evidence (contents s) w) by (intros w J; apply (gr_ev _ _ _ _ _ G); auto).
    assert (LV : forall w, hidden_linked (r_h s) (contents s) v w -> In w (g_vars (r_g s))).
    { intros w R. apply clos_rt_rtn1 in R. destruct R as [|y z (_ & [Q _] & _) R]. apply Hv. exact Q. }
    constructor.
    - split; auto. destruct Hv as [J E]. split. apply IV; auto. rewrite EE; auto.
    - intros w f R. split; intros [J Q].
      + destruct (IF f J) as [J' E']. split; auto. rewrite E'. auto.
      + destruct (in_dec Nat.eq_dec f (g_all (r_g s))) as [J0|NJ]. destruct (IF f J0) as [_ E']. split; auto. rewrite E' in Q. auto.
        exfalso. apply (apart s s' next describes observes C' G L f w w J NJ Q (LV w R)). auto.
    - intros w f R [J Q]. apply IF. auto.
    - intros w f u R [J Q] Ju. apply EE. eapply coh_in; eauto.
  Qed.
  Lemma alert_import t (op : rop (N:=N)) : careful True t op -> inserting op -> alert t op.
  Proof.
    intros Q IN. destruct op; try contradiction; repeat split; try exact Logic.I; try exact Q. all: destruct op; try contradiction; repeat split; try exact Logic.I; try apply Q; cbn; intros; try discriminate; exact Logic.I.
  Qed.
  Lemma alert_False t (op : rop (N:=N)) : alert t op -> careful False t op.
  Proof. intros [ST _]. apply steady_weaken in ST. apply ST. Qed.

  Lemma json_around atof h top s e0 tun next j s' : (forall f, built (h f)) -> rreach h top alert s -> env_ok e0 ->
    (forall v, In v (g_vars (r_g s)) -> vid v < next /\ ~ observes j (vname v) /\ (describes j (vname v) -> unobserved s v)) ->
    import_json atof e0 tun next j s = Ret tt s' \/ import_json atof e0 tun next j s = Thr s' ->
    rreach h top alert s' /\ forall v, hidden (contents s) v -> same_around (r_h s) (contents s) (r_h s') (contents s') v.
  Proof.
    intros Hb R E0 HV Q.
    pose proof (C59_json_grows atof h top s e0 tun next j Hb (alert_careful _ _ _ R) E0) as X.
    assert (Y : match import_json atof e0 tun next j s with Ret _ s' | Thr s' => rreach h top alert s' | Undef => True | NotNum => True | NoStop => False end).
    { apply (document_reach next (describes j) (observes j) True True alert h top s e0 tun); auto. apply alert_False. apply alert_import. apply json_document; auto. intros w J. apply HV. auto. }
    assert (Z : rreach h top alert s' /\ grows next (describes j) (observes j) s s'). { destruct Q as [Q|Q]; rewrite Q in X, Y; split; tauto. }
    destruct Z as [R' G]. split; auto. intros v Hv.
    apply (grows_around s s' next (describes j) (observes j)); auto. apply (rreach_coh False h top s Hb (alert_careful _ _ _ R)). apply (rreach_coh False h top s' Hb (alert_careful _ _ _ R')).
    intros w J. apply HV; auto. intros w J. apply HV; auto.
  Qed.

  (** Importing a document that observes no variable of the model does not change the
      answers about the variables that were in the model, also when the import throws. *)
  Theorem C60_json_import_partial : forall atof h top s e0 tun next j s', (forall f, built (h f)) -> rreach h top alert s -> env_ok e0 ->
    (forall v, In v (g_vars (r_g s)) -> vid v < next /\ ~ observes j (vname v) /\ (describes j (vname v) -> unobserved s v)) ->
    import_json atof e0 tun next j s = Ret tt s' \/ import_json atof e0 tun next j s = Thr s' ->
    symmetric (r_h s) (contents s) -> symmetric (r_h s') (contents s') ->
    positive (weight (r_h s) (contents s)) (contents s) -> positive (weight (r_h s') (contents s')) (contents s') ->
    forall e e' n n' v, env_ok e -> env_ok e' -> 1 <= n -> 1 <= n' -> hidden (contents s) v -> tree_around (r_h s) (contents s) v ->
    exists l g g', get_marginal (r_h s) e v n (r_g s) = Ret l g /\ get_marginal (r_h s') e' v n' (r_g s') = Ret l g'.
  Proof.
    intros atof h top s e0 tun next j s' Hb R E0 HV Q SY SY' P1 P2 e e' n n' v E E' L L' Hv T.
    destruct (json_around atof h top s e0 tun next j s' Hb R E0 HV Q) as [R' SA].
    apply (C60_marginal_answers_partial h top s h top s' e e' n n' v); auto.
  Qed.
  Lemma xml_around atof h top s place files prefix e0 tun next d s' : (forall f, built (h f)) -> rreach h top alert s -> env_ok e0 ->
    (forall v, In v (g_vars (r_g s)) -> vid v < next /\ ~ xml_observes place d (vname v) /\ (xml_describes place d (vname v) -> unobserved s v)) ->
    import_xml atof place files prefix e0 tun next d s = Ret tt s' \/ import_xml atof place files prefix e0 tun next d s = Thr s' ->
    rreach h top alert s' /\ forall v, hidden (contents s) v -> same_around (r_h s) (contents s) (r_h s') (contents s') v.
  Proof.
    intros Hb R E0 HV Q.
    pose proof (C59_xml_grows atof h top s place files prefix e0 tun next d Hb (alert_careful _ _ _ R) E0) as X.
    assert (Y : match import_xml atof place files prefix e0 tun next d s with Ret _ s' | Thr s' => rreach h top alert s' | Undef => True | NotNum => True | NoStop => False end).
    { apply (document_reach next (xml_describes place d) (xml_observes place d) True True alert h top s e0 tun); auto. apply alert_False. apply alert_import. apply xml_document; auto. intros w J. apply HV. auto. }
    assert (Z : rreach h top alert s' /\ grows next (xml_describes place d) (xml_observes place d) s s'). { destruct Q as [Q|Q]; rewrite Q in X, Y; split; tauto. }
    destruct Z as [R' G]. split; auto. intros v Hv.
    apply (grows_around s s' next (xml_describes place d) (xml_observes place d)); auto. apply (rreach_coh False h top s Hb (alert_careful _ _ _ R)). apply (rreach_coh False h top s' Hb (alert_careful _ _ _ R')).
    intros w J. apply HV; auto. intros w J. apply HV; auto.
  Qed.
  Theorem C60_xml_import_partial : forall atof h top s place files prefix e0 tun next d s', (forall f, built (h f)) -> rreach h top alert s -> env_ok e0 ->
    (forall v, In v (g_vars (r_g s)) -> vid v < next /\ ~ xml_observes place d (vname v) /\ (xml_describes place d (vname v) -> unobserved s v)) ->
    import_xml atof place files prefix e0 tun next d s = Ret tt s' \/ import_xml atof place files prefix e0 tun next d s = Thr s' ->
    symmetric (r_h s) (contents s) -> symmetric (r_h s') (contents s') ->
    positive (weight (r_h s) (contents s)) (contents s) -> positive (weight (r_h s') (contents s')) (contents s') ->
    forall e e' n n' v, env_ok e -> env_ok e' -> 1 <= n -> 1 <= n' -> hidden (contents s) v -> tree_around (r_h s) (contents s) v ->
    exists l g g', get_marginal (r_h s) e v n (r_g s) = Ret l g /\ get_marginal (r_h s') e' v n' (r_g s') = Ret l g'.
  Proof.
    intros atof h top s place files prefix e0 tun next d s' Hb R E0 HV Q SY SY' P1 P2 e e' n n' v E E' L L' Hv T.
    destruct (xml_around atof h top s place files prefix e0 tun next d s' Hb R E0 HV Q) as [R' SA].
    apply (C60_marginal_answers_partial h top s h top s' e e' n n' v); auto.
  Qed.

  Theorem C60_json_import_map_partial : forall atof h top s e0 tun next j s', (forall f, built (h f)) -> rreach h top alert s -> env_ok e0 ->
    (forall v, In v (g_vars (r_g s)) -> vid v < next /\ ~ observes j (vname v) /\ (describes j (vname v) -> unobserved s v)) ->
    import_json atof e0 tun next j s = Ret tt s' \/ import_json atof e0 tun next j s = Thr s' ->
    symmetric (r_h s) (contents s) -> symmetric (r_h s') (contents s') -> above_floor (r_h s) (contents s) -> above_floor (r_h s') (contents s') ->
    positive (weight (r_h s) (contents s)) (contents s) -> positive (weight (r_h s') (contents s')) (contents s') ->
    forall e e' n n' v, env_ok e -> env_ok e' -> 1 <= n -> 1 <= n' -> hidden (contents s) v -> tree_around (r_h s) (contents s) v ->
    exists k g g', get_map (r_h s) e v n (r_g s) = Ret k g /\ get_map (r_h s') e' v n' (r_g s') = Ret k g'.
  Proof.
    intros atof h top s e0 tun next j s' Hb R E0 HV Q SY SY' AF AF' P1 P2 e e' n n' v E E' L L' Hv T.
    destruct (json_around atof h top s e0 tun next j s' Hb R E0 HV Q) as [R' SA].
    apply (C60_map_answers_partial h top s h top s' e e' n n' v); auto.
  Qed.
  Theorem C60_json_import_joint_partial : forall atof h top s e0 tun next j s', (forall f, built (h f)) -> rreach h top alert s -> env_ok e0 ->
    (forall v, In v (g_vars (r_g s)) -> vid v < next /\ ~ observes j (vname v) /\ (describes j (vname v) -> unobserved s v)) ->
    import_json atof e0 tun next j s = Ret tt s' \/ import_json atof e0 tun next j s = Thr s' ->
    symmetric (r_h s) (contents s) -> symmetric (r_h s') (contents s') ->
    positive (weight (r_h s) (contents s)) (contents s) -> positive (weight (r_h s') (contents s')) (contents s') ->
    forall e e' n n' v g, env_ok e -> env_ok e' -> 1 <= n -> 1 <= n' -> hidden (contents s) v -> tree_around (r_h s) (contents s) v ->
    wf_group g -> g_soup g <> [] -> (forall w, In w (g_soup g) -> hidden_linked (r_h s) (contents s) v w) -> joined_inside (r_h s) (contents s) (g_soup g) ->
    exists f f' q q', get_joint (r_h s) e g n (r_g s) = Ret f q /\ get_joint (r_h s') e' g n' (r_g s') = Ret f' q' /\
      f_vars f = g_soup g /\ f_vars f' = g_soup g /\
      exists c, (n0 < c)%num /\ forall l, valid_comb (map vsize (g_soup g)) l -> fval f' l = (c * fval f l)%num.
  Proof.
    intros atof h top s e0 tun next j s' Hb R E0 HV Q SY SY' P1 P2 e e' n n' v g E E' L L' Hv T WG NE K JI.
    destruct (json_around atof h top s e0 tun next j s' Hb R E0 HV Q) as [R' SA].
    apply (C60_joint_answers_partial h top s h top s' e e' n n' v g); auto.
  Qed.
  Theorem C60_xml_import_map_partial : forall atof h top s place files prefix e0 tun next d s', (forall f, built (h f)) -> rreach h top alert s -> env_ok e0 ->
    (forall v, In v (g_vars (r_g s)) -> vid v < next /\ ~ xml_observes place d (vname v) /\ (xml_describes place d (vname v) -> unobserved s v)) ->
    import_xml atof place files prefix e0 tun next d s = Ret tt s' \/ import_xml atof place files prefix e0 tun next d s = Thr s' ->
    symmetric (r_h s) (contents s) -> symmetric (r_h s') (contents s') -> above_floor (r_h s) (contents s) -> above_floor (r_h s') (contents s') ->
    positive (weight (r_h s) (contents s)) (contents s) -> positive (weight (r_h s') (contents s')) (contents s') ->
    forall e e' n n' v, env_ok e -> env_ok e' -> 1 <= n -> 1 <= n' -> hidden (contents s) v -> tree_around (r_h s) (contents s) v ->
    exists k g g', get_map (r_h s) e v n (r_g s) = Ret k g /\ get_map (r_h s') e' v n' (r_g s') = Ret k g'.
  Proof.
    intros atof h top s place files prefix e0 tun next d s' Hb R E0 HV Q SY SY' AF AF' P1 P2 e e' n n' v E E' L L' Hv T.
    destruct (xml_around atof h top s place files prefix e0 tun next d s' Hb R E0 HV Q) as [R' SA].
    apply (C60_map_answers_partial h top s h top s' e e' n n' v); auto.
  Qed.
  Theorem C60_xml_import_joint_partial : forall atof h top s place files prefix e0 tun next d s', (forall f, built (h f)) -> rreach h top alert s -> env_ok e0 ->
    (forall v, In v (g_vars (r_g s)) -> vid v < next /\ ~ xml_observes place d (vname v) /\ (xml_describes place d (vname v) -> unobserved s v)) ->
    import_xml atof place files prefix e0 tun next d s = Ret tt s' \/ import_xml atof place files prefix e0 tun next d s = Thr s' ->
    symmetric (r_h s) (contents s) -> symmetric (r_h s') (contents s') ->
    positive (weight (r_h s) (contents s)) (contents s) -> positive (weight (r_h s') (contents s')) (contents s') ->
    forall e e' n n' v g, env_ok e -> env_ok e' -> 1 <= n -> 1 <= n' -> hidden (contents s) v -> tree_around (r_h s) (contents s) v ->
    wf_group g -> g_soup g <> [] -> (forall w, In w (g_soup g) -> hidden_linked (r_h s) (contents s) v w) -> joined_inside (r_h s) (contents s) (g_soup g) ->
    exists f f' q q', get_joint (r_h s) e g n (r_g s) = Ret f q /\ get_joint (r_h s') e' g n' (r_g s') = Ret f' q' /\
      f_vars f = g_soup g /\ f_vars f' = g_soup g /\
      exists c, (n0 < c)%num /\ forall l, valid_comb (map vsize (g_soup g)) l -> fval f' l = (c * fval f l)%num.
  Proof.
    intros atof h top s place files prefix e0 tun next d s' Hb R E0 HV Q SY SY' P1 P2 e e' n n' v g E E' L L' Hv T WG NE K JI.
    destruct (xml_around atof h top s place files prefix e0 tun next d s' Hb R E0 HV Q) as [R' SA].
    apply (C60_joint_answers_partial h top s h top s' e e' n n' v g); auto.
  Qed.

  (** {1 Evidences} *)
  Lemma evidence_around h top s e0 u k a s' v : (forall f, built (h f)) -> rreach h top alert s -> env_ok e0 ->
    rcall e0 (RGraph (OSet u k)) s = Ret a s' -> hidden (contents s) v ->
    vkey v <> vkey u -> (forall w f x, hidden_linked (r_h s) (contents s) v w -> about (r_h s) (contents s) w f -> In x (f_vars (r_h s f)) -> vkey x <> vkey u) ->
    rreach h top alert s' /\ same_around (r_h s) (contents s) (r_h s') (contents s') v.
  Proof.
    intros Hb R E0 Q Hv NU NW.
    assert (AL : alert s (RGraph (OSet u k))). { repeat split; try exact Logic.I. cbn. intros; discriminate. }
    pose proof (rreach_coh False h top s Hb (alert_careful _ _ _ R)) as C.
    pose proof (call_refines (r_h s) (coh_solid _ _ C) (r_g s) (contents s) e0 (OSet u k) (ch_inv _ _ C) (coh_abs _ _ C) E0 Logic.I) as X. cbn [sp_step] in X. destruct X as (g & X & _ & AB & _).
    assert (R' : rreach h top alert s'). { apply (RR_ret h top alert s e0 (RGraph (OSet u k)) a s' R); auto; exact eq_refl || exact Logic.I. }
    pose proof (rreach_coh False h top s' Hb (alert_careful _ _ _ R')) as C'.
    cbn [rcall] in Q. unfold on_g in Q. rewrite X in Q. unfold sp_set_ev in *. destruct ((k <? vsize u) && sp_known (contents s) u); cbn [fst snd] in *; cbn [rmapo obind] in Q; [|discriminate].
    injection Q as Qa Qs.
    assert (EG : r_g s' = g /\ r_h s' = r_h s) by (subst s'; split; reflexivity). destruct EG as [EG EH].
    assert (EV : sp_vars (contents s') = sp_vars (contents s)) by (unfold contents; cbn [spec_of sp_vars]; rewrite EG; exact (ab_vars _ _ AB)).
    assert (EF : sp_facs (contents s') = sp_facs (contents s)) by (unfold contents; cbn [spec_of sp_facs]; rewrite EG; exact (ab_all _ _ AB)).
    assert (EE : forall x, In x (sp_vars (contents s)) -> vkey x <> vkey u -> sp_evidence (contents s') x = sp_evidence (contents s) x).
    { intros x J NX. rewrite <- EV in J. apply In_nth_error in J as [i V]. change (var_at (r_g s') i x) in V. rewrite (ev_at (r_g s') (contents s') (coh_abs _ _ C') i x V). rewrite EG in *. rewrite (ab_ev _ _ AB i x V).
      unfold sp_set, upd_ev. cbn [sp_ev]. unfold sp_evidence. cbn [vkey fst snd]. destruct (String.eqb_spec (vname x) (vname u)); auto. destruct (Nat.eqb_spec (vsize x) (vsize u)); auto. exfalso. apply NX. unfold vkey. congruence. }
    split; [exact R'|].
    constructor; rewrite ?EH.
    - split; auto. destruct Hv as [J1 J2]. split. rewrite EV; auto. rewrite EE; auto.
    - intros w f RW. unfold about. rewrite EF. tauto.
    - intros; auto.
    - intros w f x RW B Jx. apply EE; [|eapply NW; eauto]. eapply coh_in; eauto. apply B.
  Qed.
  (** Observing a variable [u] that is not linked to [v], and has no factor in common with
      the variables linked to [v], does not change the answers about [v]. *)
  Theorem C60_evidence_partial : forall h top s e0 u k a s', (forall f, built (h f)) -> rreach h top alert s -> env_ok e0 ->
    rcall e0 (RGraph (OSet u k)) s = Ret a s' ->
    symmetric (r_h s) (contents s) -> symmetric (r_h s') (contents s') ->
    positive (weight (r_h s) (contents s)) (contents s) -> positive (weight (r_h s') (contents s')) (contents s') ->
    forall e e' n n' v, env_ok e -> env_ok e' -> 1 <= n -> 1 <= n' -> hidden (contents s) v -> tree_around (r_h s) (contents s) v ->
    vkey v <> vkey u -> (forall w f x, hidden_linked (r_h s) (contents s) v w -> about (r_h s) (contents s) w f -> In x (f_vars (r_h s f)) -> vkey x <> vkey u) ->
    exists l g g', get_marginal (r_h s) e v n (r_g s) = Ret l g /\ get_marginal (r_h s') e' v n' (r_g s') = Ret l g'.
  Proof.
    intros h top s e0 u k a s' Hb R E0 Q SY SY' P1 P2 e e' n n' v E E' L L' Hv T NU NW.
    destruct (evidence_around h top s e0 u k a s' v Hb R E0 Q Hv NU NW) as [R' SA].
    apply (C60_marginal_answers_partial h top s h top s' e e' n n' v); auto.
  Qed.
  Theorem C60_evidence_map_partial : forall h top s e0 u k a s', (forall f, built (h f)) -> rreach h top alert s -> env_ok e0 ->
    rcall e0 (RGraph (OSet u k)) s = Ret a s' ->
    symmetric (r_h s) (contents s) -> symmetric (r_h s') (contents s') -> above_floor (r_h s) (contents s) -> above_floor (r_h s') (contents s') ->
    positive (weight (r_h s) (contents s)) (contents s) -> positive (weight (r_h s') (contents s')) (contents s') ->
    forall e e' n n' v, env_ok e -> env_ok e' -> 1 <= n -> 1 <= n' -> hidden (contents s) v -> tree_around (r_h s) (contents s) v ->
    vkey v <> vkey u -> (forall w f x, hidden_linked (r_h s) (contents s) v w -> about (r_h s) (contents s) w f -> In x (f_vars (r_h s f)) -> vkey x <> vkey u) ->
    exists j g g', get_map (r_h s) e v n (r_g s) = Ret j g /\ get_map (r_h s') e' v n' (r_g s') = Ret j g'.
  Proof.
    intros h top s e0 u k a s' Hb R E0 Q SY SY' AF AF' P1 P2 e e' n n' v E E' L L' Hv T NU NW.
    destruct (evidence_around h top s e0 u k a s' v Hb R E0 Q Hv NU NW) as [R' SA].
    apply (C60_map_answers_partial h top s h top s' e e' n n' v); auto.
  Qed.
  Theorem C60_evidence_joint_partial : forall h top s e0 u k a s', (forall f, built (h f)) -> rreach h top alert s -> env_ok e0 ->
    rcall e0 (RGraph (OSet u k)) s = Ret a s' ->
    symmetric (r_h s) (contents s) -> symmetric (r_h s') (contents s') ->
    positive (weight (r_h s) (contents s)) (contents s) -> positive (weight (r_h s') (contents s')) (contents s') ->
    forall e e' n n' v g, env_ok e -> env_ok e' -> 1 <= n -> 1 <= n' -> hidden (contents s) v -> tree_around (r_h s) (contents s) v ->
    vkey v <> vkey u -> (forall w f x, hidden_linked (r_h s) (contents s) v w -> about (r_h s) (contents s) w f -> In x (f_vars (r_h s f)) -> vkey x <> vkey u) ->
    wf_group g -> g_soup g <> [] -> (forall w, In w (g_soup g) -> hidden_linked (r_h s) (contents s) v w) -> joined_inside (r_h s) (contents s) (g_soup g) ->
    exists f f' q q', get_joint (r_h s) e g n (r_g s) = Ret f q /\ get_joint (r_h s') e' g n' (r_g s') = Ret f' q' /\
      f_vars f = g_soup g /\ f_vars f' = g_soup g /\
      exists c, (n0 < c)%num /\ forall l, valid_comb (map vsize (g_soup g)) l -> fval f' l = (c * fval f l)%num.
  Proof.
    intros h top s e0 u k a s' Hb R E0 Q SY SY' P1 P2 e e' n n' v g E E' L L' Hv T NU NW WG NE K JI.
    destruct (evidence_around h top s e0 u k a s' v Hb R E0 Q Hv NU NW) as [R' SA].
    apply (C60_joint_answers_partial h top s h top s' e e' n n' v g); auto.
  Qed.
End P.

(** {1 Examples} *)

(** A - C - D - E as in [field_tale]; the variables X and Y come from a document *)
Notation joined := (import_json read6 env_id true 40 two_more field_state).
Lemma field_names : forallb (fun v => negb (String.eqb (vname v) "X") && negb (String.eqb (vname v) "Y") && (vid v <? 40)) (g_vars (r_g field_state)) = true.
Proof. vm_compute. reflexivity. Qed.
Lemma joined_apart v : In v (g_vars (r_g field_state)) -> vid v < 40 /\ ~ observes two_more (vname v) /\ (describes two_more (vname v) -> unobserved field_state v).
Proof.
  intros J. pose proof (proj1 (forallb_forall _ _) field_names v J) as Q. cbv beta in Q. apply andb_true_iff in Q as [Q Q3]. apply andb_true_iff in Q as [Q1 Q2].
  assert (ND : ~ describes two_more (vname v)). { intros D. apply two_more_names in D as [D|D]; rewrite D in Q1, Q2. discriminate Q1. discriminate Q2. }
  split. apply Nat.ltb_lt; exact Q3. split. intros (a & x & t & A1 & A2 & A3 & A4 & _). apply ND. exists a, x, t. exact (conj A1 (conj A2 (conj A3 A4))). intros D. destruct (ND D).
Qed.
Lemma joined_returns : joined = Ret tt (state_of joined).
Proof. apply returns_state. vm_compute. reflexivity. Qed.
Lemma joined_around : rreach gH 6 alert (state_of joined) /\ same_around (r_h field_state) (contents field_state) (r_h (state_of joined)) (contents (state_of joined)) exA.
Proof.
  destruct (json_around read6 gH 6 field_state env_id true 40 two_more (state_of joined) gH_built field_reach env_id_ok joined_apart (or_introl joined_returns)) as [R S].
  split; [exact R|]. apply S. apply hiddenb_ok. vm_compute. reflexivity.
Qed.
Lemma field_symmetric : symmetric (r_h field_state) (contents field_state).
Proof. apply (symmetricb_ok QcNum_ok). vm_compute. reflexivity. Qed.
Lemma field_positive : positive (weight (r_h field_state) (contents field_state)) (contents field_state).
Proof. apply positiveb_ok. vm_compute. reflexivity. Qed.
Lemma joined_symmetric : symmetric (r_h (state_of joined)) (contents (state_of joined)).
Proof. apply (symmetricb_ok QcNum_ok). vm_compute. reflexivity. Qed.
Lemma joined_positive : positive (weight (r_h (state_of joined)) (contents (state_of joined))) (contents (state_of joined)).
Proof. apply positiveb_ok. vm_compute. reflexivity. Qed.
Example C60_import_example : exists l g g', get_marginal (r_h field_state) env_id exA 1 (r_g field_state) = Ret l g /\
  get_marginal (r_h (state_of joined)) env_rev exA 3 (r_g (state_of joined)) = Ret l g'.
Proof.
  apply (C60_json_import_partial QcNum_ok read6 gH 6 field_state env_id true 40 two_more (state_of joined) gH_built field_reach env_id_ok joined_apart (or_introl joined_returns)
    field_symmetric joined_symmetric field_positive joined_positive env_id env_rev 1 3 exA env_id_ok env_rev_ok (le_n 1) (le_S _ _ (le_S _ _ (le_n 1)))).
  - apply hiddenb_ok. vm_compute. reflexivity.
  - apply field_tree.
Qed.
Example C60_map_example : exists j g g', get_map (r_h field_state) env_id exA 1 (r_g field_state) = Ret j g /\
  get_map (r_h (state_of joined)) env_rev exA 3 (r_g (state_of joined)) = Ret j g'.
Proof.
  apply (C60_map_answers_partial QcNum_ok gH 6 field_state gH 6 (state_of joined) env_id env_rev 1 3 exA gH_built gH_built field_reach (proj1 joined_around) env_id_ok env_rev_ok
    (le_n 1) (le_S _ _ (le_S _ _ (le_n 1))) (proj2 joined_around) field_symmetric joined_symmetric); [| |exact field_positive|exact joined_positive|apply field_tree].
  - apply above_floorb_ok. vm_compute. reflexivity.
  - apply above_floorb_ok. vm_compute. reflexivity.
Qed.
(** A and C together *)
Example C60_distribution_example : let P := fun x => takes exA 1 x && takes exC 0 x in
  probability (r_h field_state) (contents field_state) P = probability (r_h (state_of joined)) (contents (state_of joined)) P.
Proof.
  intros P. apply (C60_distribution QcNum_ok gH 6 field_state gH 6 (state_of joined) exA P gH_built gH_built (alert_careful _ _ _ field_reach) (alert_careful _ _ _ (proj1 joined_around))
    (proj2 joined_around) field_positive joined_positive).
  assert (E : hidden_edge (r_h field_state) (contents field_state) exA exC) by (apply edgeb_ok; vm_compute; reflexivity).
  intros x y Q. unfold P, takes. rewrite (Q exA (rt_refl _ _ _)), (Q exC (rt_step _ _ _ _ E)). reflexivity.
Qed.
Example C60_joint_example : let g := mkGroup [exA; exC] [exA; exC] in
  exists f f' q q', get_joint (r_h field_state) env_id g 1 (r_g field_state) = Ret f q /\ get_joint (r_h (state_of joined)) env_rev g 3 (r_g (state_of joined)) = Ret f' q' /\
  f_vars f = [exA; exC] /\ f_vars f' = [exA; exC] /\ exists c, nltb n0 c = true /\ forall l, valid_comb [vsize exA; vsize exC] l -> fval f' l = nmul c (fval f l).
Proof.
  intros g. assert (E : hidden_edge (r_h field_state) (contents field_state) exA exC) by (apply edgeb_ok; vm_compute; reflexivity).
  apply (C60_joint_answers_partial QcNum_ok gH 6 field_state gH 6 (state_of joined) env_id env_rev 1 3 exA g gH_built gH_built field_reach (proj1 joined_around) env_id_ok env_rev_ok
    (le_n 1) (le_S _ _ (le_S _ _ (le_n 1))) (proj2 joined_around) field_symmetric joined_symmetric field_positive joined_positive).
  - apply field_tree.
  - split; vm_compute; repeat constructor; simpl; intuition discriminate.
  - discriminate.
  - intros w [<-|[<-|[]]]. apply rt_refl. apply rt_step. exact E.
  - intros v w [<-|[<-|[]]] [<-|[<-|[]]] _.
    + apply rt_refl.
    + apply rt_step. exact (conj E (conj (or_introl eq_refl) (or_intror (or_introl eq_refl)))).
    + apply rt_step. exact (conj (edge_flip _ _ _ _ E) (conj (or_intror (or_introl eq_refl)) (or_introl eq_refl))).
    + apply rt_refl.
Qed.

Example C60_import_map_example : exists j g g', get_map (r_h field_state) env_id exA 1 (r_g field_state) = Ret j g /\
  get_map (r_h (state_of joined)) env_rev exA 3 (r_g (state_of joined)) = Ret j g'.
Proof.
  apply (C60_json_import_map_partial QcNum_ok read6 gH 6 field_state env_id true 40 two_more (state_of joined) gH_built field_reach env_id_ok joined_apart (or_introl joined_returns)
    field_symmetric joined_symmetric); [apply above_floorb_ok; vm_compute; reflexivity|apply above_floorb_ok; vm_compute; reflexivity|exact field_positive|exact joined_positive|
    exact env_id_ok|exact env_rev_ok|exact (le_n 1)|exact (le_S _ _ (le_S _ _ (le_n 1)))|apply hiddenb_ok; vm_compute; reflexivity|apply field_tree].
Qed.
Example C60_import_joint_example : let g := mkGroup [exA] [exA] in
  exists f f' q q', get_joint (r_h field_state) env_id g 1 (r_g field_state) = Ret f q /\ get_joint (r_h (state_of joined)) env_rev g 3 (r_g (state_of joined)) = Ret f' q' /\
  f_vars f = [exA] /\ f_vars f' = [exA] /\ exists c, nltb n0 c = true /\ forall l, valid_comb [vsize exA] l -> fval f' l = nmul c (fval f l).
Proof.
  intros g. apply (C60_json_import_joint_partial QcNum_ok read6 gH 6 field_state env_id true 40 two_more (state_of joined) gH_built field_reach env_id_ok joined_apart (or_introl joined_returns)
    field_symmetric joined_symmetric field_positive joined_positive env_id env_rev 1 3 exA g env_id_ok env_rev_ok (le_n 1) (le_S _ _ (le_S _ _ (le_n 1)))).
  - apply hiddenb_ok. vm_compute. reflexivity.
  - apply field_tree.
  - split; [constructor; [intros []|constructor]|apply Permutation_refl].
  - intros Q. inversion Q.
  - intros w [<-|[]]. apply rt_refl.
  - intros v w [<-|[]] [<-|[]] _. apply rt_refl.
Qed.

(** a factor on A, a factor on D - E: observing E does not change A *)
Notation parts := (rruns (r_empty gH 6) [RConst (Some 2); RConst (Some 4)]).
Lemma parts_reach : rreach gH 6 alert parts.
Proof. apply rruns_alert. constructor. vm_compute. reflexivity. Qed.
Lemma parts_alone : forallb (fun z => negb (edgeb (r_h parts) (contents parts) exA z)) (sp_vars (contents parts)) = true.
Proof. vm_compute. reflexivity. Qed.
Lemma parts_linked w : hidden_linked (r_h parts) (contents parts) exA w -> w = exA.
Proof.
  intros R. apply clos_rt_rt1n in R. destruct R as [|y z Q R]; [reflexivity|]. exfalso. pose proof Q as (_ & [J _] & _).
  pose proof (proj1 (forallb_forall _ _) parts_alone y J) as X. cbv beta in X. rewrite (proj2 (edgeb_ok (r_h parts) (contents parts) exA y) Q) in X. discriminate X.
Qed.
Lemma returns_any {A} (o : out (rst (N:=QcNum)) A) : returns o = true -> exists a, o = Ret a (state_of o).
Proof. destruct o as [a t| | | |]; intros Q; try discriminate Q. exists a. reflexivity. Qed.
Notation seen_parts := (rcall env_id (RGraph (OSet exE 1)) parts).
Lemma parts_factors : forallb (fun f => negb (mem (f_vars (r_h parts f)) exA) || forallb (fun x => negb (String.eqb (vname x) "E")) (f_vars (r_h parts f))) (sp_facs (contents parts)) = true.
Proof. vm_compute. reflexivity. Qed.
Lemma parts_apart w f x : hidden_linked (r_h parts) (contents parts) exA w -> about (r_h parts) (contents parts) w f -> In x (f_vars (r_h parts f)) -> vkey x <> vkey exE.
Proof.
  intros R [J B] Jx Q. apply parts_linked in R. subst w. pose proof (proj1 (forallb_forall _ _) parts_factors f J) as X. cbv beta in X.
    rewrite (proj2 (mem_In _ _) B) in X. cbn [negb orb] in X. pose proof (proj1 (forallb_forall _ _) X x Jx) as Y. cbv beta in Y. injection Q as Qn Qs. rewrite Qn in Y. discriminate Y.
Qed.
Lemma parts_tree : tree_around (r_h parts) (contents parts) exA.
Proof. apply (forestb_ok (r_h parts)). vm_compute. repeat (constructor; [simpl; intuition discriminate|]). constructor. vm_compute. reflexivity. Qed.
Example C60_evidence_example : exists l g g', get_marginal (r_h parts) env_id exA 1 (r_g parts) = Ret l g /\
  get_marginal (r_h (state_of seen_parts)) env_rev exA 3 (r_g (state_of seen_parts)) = Ret l g'.
Proof.
  destruct (returns_any seen_parts) as [a Qa]; [vm_compute; reflexivity|].
  apply (C60_evidence_partial QcNum_ok gH 6 parts env_id exE 1 a (state_of seen_parts) gH_built parts_reach env_id_ok Qa).
  - apply (symmetricb_ok QcNum_ok). vm_compute. reflexivity.
  - apply (symmetricb_ok QcNum_ok). vm_compute. reflexivity.
  - apply positiveb_ok. vm_compute. reflexivity.
  - apply positiveb_ok. vm_compute. reflexivity.
  - exact env_id_ok.
  - exact env_rev_ok.
  - exact (le_n 1).
  - exact (le_S _ _ (le_S _ _ (le_n 1))).
  - apply hiddenb_ok. vm_compute. reflexivity.
  - apply (forestb_ok (r_h parts)). vm_compute. repeat (constructor; [simpl; intuition discriminate|]). constructor. vm_compute. reflexivity.
  - intros Q. discriminate Q.
  - intros w f x R [J B] Jx Q. apply parts_linked in R. subst w. pose proof (proj1 (forallb_forall _ _) parts_factors f J) as X. cbv beta in X.
    rewrite (proj2 (mem_In _ _) B) in X. cbn [negb orb] in X. pose proof (proj1 (forallb_forall _ _) X x Jx) as Y. cbv beta in Y. injection Q as Qn Qs. rewrite Qn in Y. discriminate Y.
Qed.
Example C60_evidence_map_example : exists j g g', get_map (r_h parts) env_id exA 1 (r_g parts) = Ret j g /\
  get_map (r_h (state_of seen_parts)) env_rev exA 3 (r_g (state_of seen_parts)) = Ret j g'.
Proof.
  destruct (returns_any seen_parts) as [a Qa]; [vm_compute; reflexivity|].
  apply (C60_evidence_map_partial QcNum_ok gH 6 parts env_id exE 1 a (state_of seen_parts) gH_built parts_reach env_id_ok Qa);
    [apply (symmetricb_ok QcNum_ok); vm_compute; reflexivity|apply (symmetricb_ok QcNum_ok); vm_compute; reflexivity|
     apply above_floorb_ok; vm_compute; reflexivity|apply above_floorb_ok; vm_compute; reflexivity|apply positiveb_ok; vm_compute; reflexivity|apply positiveb_ok; vm_compute; reflexivity|
     exact env_id_ok|exact env_rev_ok|exact (le_n 1)|exact (le_S _ _ (le_S _ _ (le_n 1)))|apply hiddenb_ok; vm_compute; reflexivity|exact parts_tree|intros Q; discriminate Q|exact parts_apart].
Qed.
Example C60_evidence_joint_example : let g := mkGroup [exA] [exA] in
  exists f f' q q', get_joint (r_h parts) env_id g 1 (r_g parts) = Ret f q /\ get_joint (r_h (state_of seen_parts)) env_rev g 3 (r_g (state_of seen_parts)) = Ret f' q' /\
  f_vars f = [exA] /\ f_vars f' = [exA] /\ exists c, nltb n0 c = true /\ forall l, valid_comb [vsize exA] l -> fval f' l = nmul c (fval f l).
Proof.
  intros g. destruct (returns_any seen_parts) as [a Qa]; [vm_compute; reflexivity|].
  apply (C60_evidence_joint_partial QcNum_ok gH 6 parts env_id exE 1 a (state_of seen_parts) gH_built parts_reach env_id_ok Qa) with (v := exA) (g := g);
    [apply (symmetricb_ok QcNum_ok); vm_compute; reflexivity|apply (symmetricb_ok QcNum_ok); vm_compute; reflexivity|
     apply positiveb_ok; vm_compute; reflexivity|apply positiveb_ok; vm_compute; reflexivity|
     exact env_id_ok|exact env_rev_ok|exact (le_n 1)|exact (le_S _ _ (le_S _ _ (le_n 1)))|apply hiddenb_ok; vm_compute; reflexivity|exact parts_tree|intros Q; discriminate Q|exact parts_apart| | | |].
  - split; [constructor; [intros []|constructor]|apply Permutation_refl].
  - intros Q. inversion Q.
  - intros w [<-|[]]. apply rt_refl.
  - intros v w [<-|[]] [<-|[]] _. apply rt_refl.
Qed.
Print Assumptions C60_distribution.
Print Assumptions C60_marginal_answers_partial.
Print Assumptions C60_map_answers_partial.
Print Assumptions C60_joint_answers_partial.
Print Assumptions C60_json_import_partial.
Print Assumptions C60_xml_import_partial.
Print Assumptions C60_evidence_partial.
Print Assumptions C60_evidence_map_partial.
Print Assumptions C60_evidence_joint_partial.
Print Assumptions C60_json_import_map_partial.
Print Assumptions C60_json_import_joint_partial.
Print Assumptions C60_xml_import_map_partial.
Print Assumptions C60_xml_import_joint_partial.
