(** Property C58: the answers of a conditional random field.

    A conditional random field just made, or whose evidences were just set
    ([setEvidences] returned), answers the queries with the exact distribution of
    its hidden variables given its evidences. [answering] are these states and
    those reached from them with queries. *)
From Coq Require Import String List Arith Bool Lia Permutation Relations QArith Qcanon.
From Verif Require Import Res Num Categoric Combs Func FuncProofs GroupProofs FactorProofs FactorApi Special SpecialProofs
  Graph GraphLemmas Clusters Belief Query GraphInv EvidInv BeliefInv BigOp Tree Cycle BPStep BPRun GraphSpec Hist P_Graph BeliefSpec Sums Exact BeliefHist Queries
  Rebuild P_Belief Gibbs Parts JointSpec Joint P_Joint SafeSpec Safe Train TrainHist Coherent TrainSpec Gradient TrainInv GradientRun P_Categoric P_Factor Demo BeliefDemo TrainDemo P_Train
  P_Gradient P_GradientDemo FieldHist P_Field Plan CopyProofs P_Copy CRF CRFHist P_CRF CRFInv P_CRFDemo.
Import ListNotations.
Open Scope nat_scope.
Notation hidden := BeliefSpec.hidden.

(** {1 Specification} *)

(** the model [A], where the variables observed are [vs] and their values [xs] *)
Definition told (A : spec) (vs : list var) (xs : list nat) : spec :=
  mkSpec (sp_vars A) (fun k => option_map snd (find (fun p => String.eqb (vname (fst p)) (fst k) && (vsize (fst p) =? snd k)) (combine vs xs))) (sp_facs A).

Section Spec.
  Context {N : num}.
  Notation crf := (crf (N:=N)).

  (** No propagation was done since the last change ([getLastPropagationInfo] is
      empty), as after the construction and after [setEvidences]; then queries, each
      with at least one thread, asked when some assignment of positive weight agrees
      with the evidences. *)
  Inductive answering : crf -> Prop :=
  | AN_start c : clives false c -> g_last (graph_of c) = None -> answering c
  | AN_query c e op s : answering c -> crf_query op = true -> env_ok e -> sound_query (r_h (c_r c)) (contents (c_r c)) op ->
      (ccall e (c_pos c) (CQuery op) (c_r c) = Thr s \/ exists a, ccall e (c_pos c) (CQuery op) (c_r c) = Ret a s) -> answering (mkC s (c_pos c)).
End Spec.

Section P.
  Context {N : num} (OK : num_ok N).
  Notation rst := (rst (N:=N)).
  Notation crf := (crf (N:=N)).
  Implicit Types s : rst.

  Lemma ofold_last {B} (f : B -> rst -> out rst unit) (Q : rst -> Prop) l : (forall b s s', f b s = Ret tt s' -> Q s') ->
    forall s s', ofold f l s = Ret tt s' -> Q s \/ l <> [] -> Q s'.
  Proof.
    intros K. induction l as [|b l IH]; cbn [ofold]; intros s s' E [J|J].
    - injection E as <-. auto.
    - congruence.
    - destruct (f b s) as [[] s1|s1| | |] eqn:F; cbn [obind] in E; try discriminate. eauto.
    - destruct (f b s) as [[] s1|s1| | |] eqn:F; cbn [obind] in E; try discriminate. eauto.
  Qed.
  Lemma set_last H e (g : gst (N:=N)) v k g' : set_evidence H e g v k = Ret tt g' -> g_last g' = None.
  Proof.
    unfold set_evidence. destruct (_ <=? _); [discriminate|]. destruct (locate g v) as [[a l]|]; [|discriminate]. intros Q.
    match type of Q with obind ?o _ = _ => destruct o as [[] g1|g1| | |]; cbn [obind] in Q; try discriminate end.
    destruct (send_evidence H e a k g1) as [[] g2|g2| | |]; cbn [obind] in Q; try discriminate. injection Q as <-. reflexivity.
  Qed.
  Lemma on_set_last e s v k s' : on_g (fun g => set_evidence (r_h s) e g v k) s = Ret tt s' -> g_last (r_g s') = None.
  Proof.
    unfold on_g. pose proof (set_last (r_h s) e (r_g s) v k) as X. destruct (set_evidence _ e (r_g s) v k) as [[] g|g| | |]; try discriminate.
    intros [= <-]. apply X. auto.
  Qed.
  Lemma set_evidences_last e values s s' : evidence_order e (r_g s) <> [] -> set_evidences e values s = Ret tt s' -> g_last (r_g s') = None.
  Proof.
    intros NE. unfold set_evidences. destruct (Nat.eqb_spec (length values) (length (evidence_order e (r_g s)))) as [L|]; [|discriminate].
    intros Q. apply (ofold_last _ (fun s => g_last (r_g s) = None)) in Q; auto.
    - intros p t t' Qt. cbv beta in Qt. destruct (node_var (r_g t) (fst p)) as [v| | | |]; cbn [lift obind] in Qt; try discriminate. eapply on_set_last; eauto.
    - right. destruct (evidence_order e (r_g s)); [congruence|]. destruct values; simpl in *; discriminate.
  Qed.
  Lemma order_some (c : crf) e : creach c -> env_ok e -> evidence_order e (r_g (c_r c)) <> [].
  Proof.
    intros R E Q. destruct (creach_some c R) as (a & O). apply O. destruct (g_ev (r_g (c_r c)) a) as [k|] eqn:Ev; auto. exfalso.
    assert (J : In a (evidence_order e (r_g (c_r c)))).
    { unfold evidence_order. apply ord_In; auto. apply keys_In. split; eauto. eapply shape_lt; eauto. apply (ci_shape _ (creach_inv c R)). }
    rewrite Q in J. destruct J.
  Qed.

  (** {1 Where these states come from} *)

  (** after [setEvidences], in whatever state: also when weights were changed,
      gradients computed and samples drawn before *)
  Theorem C58_after_evidences : forall (c : crf) b e values s, clives b c -> env_ok e -> set_evidences e values (c_r c) = Ret tt s ->
    answering (mkC s (c_pos c)).
  Proof.
    intros c b e values s R E Q. apply AN_start.
    - change false with (later b (CEv (N:=N) values)). eapply (CL_ret b c e (CEv values)); eauto; try exact Logic.I. cbn [ccall]. unfold cmapo. rewrite Q. reflexivity.
    - eapply set_evidences_last; [|exact Q]. apply order_some; auto. eapply clives_creach; eauto.
  Qed.

  Lemma ctor_last e src copy c s : env_ok e -> crf_ctor e src copy = Ret c s -> g_last (r_g (c_r c)) = None.
  Proof.
    intros E. unfold crf_ctor, crf_absorb. destruct (keys (gsize (r_g src)) (g_ev (r_g src))) as [|k0 ks] eqn:K; [discriminate|].
    destruct (absorb_const _ copy _) as [[] s1|s1| | |]; cbn [obind]; try discriminate.
    destruct (absorb_clusters copy _ s1) as [[] s2|s2| | |]; cbn [obind]; try discriminate.
    match goal with |- context [ofold ?f ?l s2] => destruct (ofold f l s2) as [[] s3|s3| | |] eqn:F end; cbn [obind]; try discriminate.
    destruct (rmap _ _) as [ts| | | |]; cbn [lift obind]; try discriminate. intros [= <- <-]. cbn [c_r set_tuners r_g].
    apply (ofold_last _ (fun s => g_last (r_g s) = None)) in F; auto.
    - intros a t t' Q. cbv beta in Q. destruct (node_var (r_g src) a) as [v| | | |]; cbn [lift obind] in Q; try discriminate.
      destruct (g_ev (r_g src) a) as [k|]; [|discriminate]. destruct (find_variable (r_g t) (vname v)) as [w| | | |]; cbn [lift obind] in Q; try discriminate.
      eapply on_set_last; eauto.
    - right. unfold evidence_order. rewrite K. intros Q. assert (J : In k0 (e_ord e (gsize (r_g src)) (k0 :: ks))) by (apply ord_In; auto; left; auto).
      rewrite Q in J. destruct J.
  Qed.
  (** after the construction, from a random field and from a conditional one *)
  Theorem C58_after_construction : forall e (c : crf) s,
    (forall h top src copy, (forall f, built (h f)) -> rreach h top any src -> env_ok e -> crf_ctor e src copy = Ret c s -> answering c) /\
    (forall b c0, clives b c0 -> env_ok e -> crf_ctor e (c_r c0) false = Ret c s -> answering c).
  Proof.
    intros e c s. split.
    - intros h top src copy Hb R E Q. apply AN_start. eapply CL_field; eauto. eapply ctor_last; eauto.
    - intros b c0 R E Q. apply AN_start. eapply CL_copy; eauto. eapply ctor_last; eauto.
  Qed.

  (** {1 Their messages are those of the evidences} *)
  Lemma answering_lives (c : crf) : answering c -> clives false c.
  Proof.
    intros R. induction R as [c R L|c e op s R IH CQ E SQ Q]; auto.
    assert (AL : allowed false (c_r c) (CQuery op)). { split; auto. intros n Qn. unfold sound_query in SQ. rewrite Qn in SQ. apply SQ. }
    destruct Q as [Q|[a Q]].
    - change false with (later_thr false (CQuery (N:=N) op)). eapply CL_thr; eauto.
    - change false with (later false (CQuery (N:=N) op)). eapply CL_ret; eauto.
  Qed.
  Lemma answering_calib (c : crf) : answering c -> calib (r_h (c_r c)) (contents (c_r c)) (r_g (c_r c)).
  Proof.
    intros R. induction R as [c R L|c e op s R IH CQ E SQ Q].
    - apply calib_none; auto. apply (cf_en _ _ (clives_full _ _ R)).
    - pose proof (answering_lives c R) as RL. pose proof (clives_full _ _ RL) as [C _ _]. cbn [fresh] in C. set (t := c_r c) in *.
      assert (Q' : exists g, s = set_g t g /\ ends (call (r_h t) e op (r_g t)) g).
      { cbn [ccall] in Q. unfold cmapo, on_g in Q. destruct (call (r_h t) e op (r_g t)) as [a g|g| | |]; cbn [obind] in Q; destruct Q as [Q|[b Q]]; try discriminate Q; injection Q; intros; subst; exists g; split; auto; [right; eauto|left; auto]. }
      destruct Q' as (g & -> & En). cbn [c_r r_h r_g set_g].
      assert (PU : proper_use (r_h t) (contents t) op).
      { split; [|split]; auto; destruct op; try discriminate CQ; exact Logic.I. }
      pose proof (call_calib OK (r_h t) (coh_good OK True t C) (contents t) e op (r_g t) g (ch_inv _ _ C) (coh_abs True t C) (ch_clean _ _ C Logic.I) IH E PU En) as [CP CR].
      assert (SN : sp_next (fvars (r_h t)) (contents t) op = contents t) by (unfold sp_next; destruct op; try discriminate CQ; reflexivity).
      rewrite SN in CR. split; auto. intros r El. eapply ready_spec; [|apply CR; auto]. apply (abs_same_spec g).
      + pose proof (call_refines (r_h t) (coh_good OK True t C) (r_g t) (contents t) e op (ch_inv _ _ C) (coh_abs True t C) E (proj1 PU)) as Z.
        assert (SS : match sp_step (fvars (r_h t)) (contents t) op with Some (_, A') => A' = contents t | None => True end) by (destruct op; try discriminate CQ; simpl; auto).
        destruct (sp_step (fvars (r_h t)) (contents t) op) as [[u A']|].
        * subst A'. destruct Z as (s2 & Q2 & I2 & AB2 & _). rewrite Q2 in En. simpl in *. destruct u; destruct En as [En|[b En]]; try discriminate; injection En; intros; subst; auto.
        * destruct En as [En|[b En]]; rewrite En in Z; simpl in Z; eapply keeps_abs; eauto; apply (coh_abs True t C).
      + assert (LV : clives false (mkC (set_g t g) (c_pos c))) by (apply answering_lives; eapply AN_query; eauto).
        apply (coh_abs True (set_g t g) (cf_fresh _ _ (clives_full _ _ LV))).
  Qed.
  Lemma answering_usable (c : crf) : answering c -> coh True (c_r c) /\ usable (r_h (c_r c)) (contents (c_r c)) (r_g (c_r c)).
  Proof.
    intros R. pose proof (cf_fresh _ _ (clives_full _ _ (answering_lives c R))) as C. cbn [fresh] in C. split; auto.
    constructor; try apply C; auto. apply (coh_abs True _ C). apply answering_calib; auto.
  Qed.

  (** {1 The answers}

      The full property has no hypothesis on the factors and on the shape of the
      graph; the factors between hidden variables are symmetric here, and the hidden
      variables connected to the one asked form a tree: without, it is refuted for
      random fields already (C22). *)
  Theorem C58_marginals_partial : forall (c : crf) e n v, answering c -> env_ok e -> 1 <= n ->
    let F := r_h (c_r c) in let A := contents (c_r c) in
    symmetric F A -> positive (weight F A) A -> hidden A v -> tree_around F A v ->
    exists g, get_marginal F e v n (graph_of c) = Ret (map (marginal (weight F A) A v) (seq 0 (vsize v))) g.
  Proof.
    intros c e n v R E L H A SY PO Hv T. destruct (answering_usable c R) as [CO U]. pose proof (coh_good OK True _ CO) as HG. fold H A in U, HG. pose proof U as [[C _] AB _ _].
    assert (EX : forall x, In x (all_asg (sp_vars A)) -> weight_swapped H A x = weight H A x) by (intros x; apply (symmetric_weight H (r_g (c_r c))); auto).
    destruct (marginal_exact OK H HG A e n (r_g (c_r c)) v U E L (symmetric_balanced H A SY)) as [s' Q]; auto.
    { eapply positive_ext; [|exact PO]. intros; symmetry; auto. }
    exists s'. unfold graph_of. rewrite Q. f_equal. apply map_ext. intros j. apply marginal_ext. auto.
  Qed.
  Theorem C58_map_partial : forall (c : crf) e n v, answering c -> env_ok e -> 1 <= n ->
    let F := r_h (c_r c) in let A := contents (c_r c) in
    symmetric F A -> above_floor F A -> positive (weight F A) A -> hidden A v -> tree_around F A v ->
    exists j g, get_map F e v n (graph_of c) = Ret j g /\
      (exists x, most_probable (weight F A) A x /\ val x v = j) /\
      (forall x, most_probable (weight F A) A x -> j <= val x v).
  Proof.
    intros c e n v R E L H A SY AF PO Hv T. destruct (answering_usable c R) as [CO U]. pose proof (coh_good OK True _ CO) as HG. fold H A in U, HG. pose proof U as [[C _] AB _ _].
    assert (EX : forall x, In x (all_asg (sp_vars A)) -> weight_swapped H A x = weight H A x) by (intros x; apply (symmetric_weight H (r_g (c_r c))); auto).
    destruct (map_hidden OK H HG A e n (r_g (c_r c)) v U E L (symmetric_balanced H A SY)) as (j & s' & Q & Bj); auto.
    { eapply positive_ext; [|exact PO]. intros; symmetry; auto. }
    exists j, s'. split; auto. apply (best_ext _ (weight H A)) in Bj; auto.
  Qed.
  Theorem C58_joint_partial : forall (c : crf) e n g, answering c -> env_ok e -> 1 <= n ->
    let F := r_h (c_r c) in let A := contents (c_r c) in
    symmetric F A -> positive (weight F A) A -> group_of F A g -> joined_inside F A (g_soup g) -> one_observed A (g_soup g) ->
    exists f g', get_joint F e g n (graph_of c) = Ret f g' /\ f_vars f = g_soup g /\
      exists k, (n0 < k)%num /\ forall l, valid_comb (map vsize (g_soup g)) l ->
        fval f l = (k * mass (weight F A) A (takes_all (g_soup g) l))%num.
  Proof.
    intros c e n g R E L F A SY PO (WG & NE & KN & TR) JI OO. destruct (answering_usable c R) as [CO U]. pose proof (coh_good OK True _ CO) as HG.
    destruct (joint_exact OK F HG A e n (r_g (c_r c)) g U E L SY PO WG NE KN TR JI OO) as (f & s' & Q & _ & Gf & _ & k & Pk & V).
    exists f, s'. split; auto. split; [unfold f_vars; rewrite Gf; auto|]. eauto.
  Qed.
  Theorem C58_observed_partial : forall (c : crf) e n v o, answering c -> env_ok e -> 1 <= n ->
    let F := r_h (c_r c) in let A := contents (c_r c) in
    balanced F A -> positive (weight_swapped F A) A -> In v (sp_vars A) -> sp_evidence A v = Some o ->
    exists g, get_marginal F e v n (graph_of c) = Ret (map (fun j => if Nat.eqb j o then n1 else n0) (seq 0 (vsize v))) g.
  Proof.
    intros c e n v o R E L F A B PO Iv Hv. destruct (answering_usable c R) as [CO U]. pose proof (coh_good OK True _ CO) as HG.
    destruct (marginal_observed OK F HG _ e SUM n (r_g (c_r c)) v o U E L B PO Iv Hv) as (s' & _ & _ & _ & _ & Q).
    exists s'. unfold get_marginal, graph_of. destruct (Q e n E) as [Q1 Q2]. rewrite Q2. exact Q1.
  Qed.

  (** {1 The values passed to setEvidences} *)
  Lemma map_NoDup_inj {A B} (f : A -> B) l : (forall x y, In x l -> In y l -> f x = f y -> x = y) -> NoDup l -> NoDup (map f l).
  Proof.
    intros I ND. induction ND as [|a l NI ND IH]; simpl; constructor.
    - intros J. apply in_map_iff in J as (b & Q & Jb). apply I in Q; simpl; auto. congruence.
    - apply IH. intros; apply I; simpl; auto.
  Qed.
  Lemma find_told (vs : list var) : NoDup (map vkey vs) -> forall (xs : list nat) i v x, nth_error vs i = Some v -> nth_error xs i = Some x ->
    find (fun p => String.eqb (vname (fst p)) (vname v) && (vsize (fst p) =? vsize v)) (combine vs xs) = Some (v, x).
  Proof.
    induction vs as [|w vs IH]; intros ND xs i v x Hv Hx. { destruct i; discriminate. } inversion ND as [|? ? NI ND']; subst.
    destruct xs as [|y xs]; [destruct i; discriminate|]. cbn [combine find fst]. destruct i as [|i]; cbn [nth_error] in Hv, Hx.
    - injection Hv as ->. injection Hx as ->. rewrite String.eqb_refl, Nat.eqb_refl. reflexivity.
    - destruct (String.eqb (vname w) (vname v) && (vsize w =? vsize v)) eqn:K; [|apply (IH ND' xs i); auto]. exfalso. apply NI.
      apply andb_true_iff in K as [K1 K2]. apply String.eqb_eq in K1. apply Nat.eqb_eq in K2.
      apply in_map_iff. exists v. split; [unfold vkey; congruence|eapply nth_error_In; eauto].
  Qed.
  Lemma told_evidence (c : crf) b e values s : clives b c -> env_ok e -> length values = length (observed_variables e (graph_of c)) ->
    coh True s -> same_model (c_r c) s ->
    (forall k v x, nth_error (observed_variables e (graph_of c)) k = Some v -> nth_error values k = Some x -> evidence (r_g s) v x) ->
    forall v, In v (g_vars (graph_of c)) -> sp_evidence (contents s) v = sp_evidence (told (contents (c_r c)) (observed_variables e (graph_of c)) values) v.
  Proof.
    intros R E L C (HH & _ & _ & _ & VV & AA & HID) EV v Jv. pose proof (clives_creach b c R) as CR. set (vs := observed_variables e (graph_of c)) in *.
    pose proof (fun v => proj1 (proj2 (C40_observed c e v CR E))) as OB. fold vs in OB. pose proof (proj2 (proj2 (proj2 (C40_observed c e v CR E)))) as ND. fold vs in ND.
    assert (KV : NoDup (map vkey (g_vars (graph_of c)))) by apply (sh_vars _ _ (ci_shape _ (creach_inv c CR))).
    assert (IV : forall w, In w vs -> In w (g_vars (graph_of c))).
    { intros w J. apply OB in J as (k & a & V & _). eapply nth_error_In; eauto. }
    assert (KS : NoDup (map vkey vs)).
    { apply map_NoDup_inj; auto. intros x y Jx Jy Q. apply IV in Jx. apply IV in Jy. apply In_nth_error in Jx as (i & Hi). apply In_nth_error in Jy as (j & Hj).
      apply (var_at_inj (graph_of c) i j x y KV Hi Hj Q). }
    assert (Js : In v (g_vars (r_g s))) by (rewrite VV; exact Jv).
    unfold told, sp_evidence at 2. cbn [sp_ev fst snd]. destruct (find _ (combine vs values)) as [[w x]|] eqn:FD; cbn [option_map snd].
    - apply find_some in FD as [J K]. cbn [fst snd] in K. apply andb_true_iff in K as [K1 K2]. apply String.eqb_eq in K1. apply Nat.eqb_eq in K2.
      apply In_nth_error in J as (i & Hi).
      assert (Hw : nth_error vs i = Some w /\ nth_error values i = Some x).
      { clear - Hi. revert i values Hi. induction vs as [|a l IH]; intros [|i] [|y ys] Hi; simpl in *; try discriminate. injection Hi as <- <-. auto. eauto. }
      assert (w = v). { pose proof (IV w (nth_error_In _ _ (proj1 Hw))) as Jw. apply In_nth_error in Jw as (i1 & H1). apply In_nth_error in Jv as (j1 & H2).
        apply (var_at_inj (graph_of c) i1 j1 w v KV H1 H2). unfold vkey. congruence. }
      subst w. apply (ev_evidence True s v x C Js). apply (EV i); apply Hw.
    - destruct (sp_evidence (contents s) v) as [k|] eqn:Q; auto. exfalso. apply (ev_evidence True s v k C Js) in Q.
      assert (NH : In v vs).
      { apply OB. apply In_nth_error in Jv as (a & Ha). destruct (g_ev (graph_of c) a) as [k'|] eqn:G. { exists k', a. split; auto. }
        exfalso. assert (Hc : P_Graph.hidden (r_g (c_r c)) v).
        { apply (hidden_iff _ _ v (ci_shape _ (creach_inv c CR))). exists a. split; auto. }
        apply HID in Hc as [_ NK]. apply (NK k). exact Q. }
      apply In_nth_error in NH as (i & Hi). assert (exists x, nth_error values i = Some x) as (x & Hx).
      { destruct (nth_error values i) eqn:Z; eauto. apply nth_error_None in Z. assert (i < length vs) by (apply nth_error_Some; congruence). lia. }
      rewrite (find_told vs KS values i v x Hi Hx) in FD. discriminate.
  Qed.

  (** [setEvidences], when it returns, then a query: the distribution of the
      variable given the values passed, each to the variable that
      [getObservedVariables] lists at the same place (C40). Whatever was done
      before: queries, trainings, changes of the weights. *)
  Theorem C58_conditional_partial : forall (c : crf) b e values e' n v, clives b c -> env_ok e -> env_ok e' -> 1 <= n ->
    let vs := observed_variables e (graph_of c) in
    length values = length vs -> (forall k w x, nth_error vs k = Some w -> nth_error values k = Some x -> x < vsize w) ->
    let F := r_h (c_r c) in let A := told (contents (c_r c)) vs values in
    symmetric F A -> positive (weight F A) A -> hidden A v -> tree_around F A v ->
    exists s g, set_evidences e values (c_r c) = Ret tt s /\
      get_marginal (r_h s) e' v n (r_g s) = Ret (map (marginal (weight F A) A v) (seq 0 (vsize v))) g.
  Proof.
    intros c b e values e' n v R E E' L vs LV FIT F A SY PO Hv T. pose proof (clives_creach b c R) as CR.
    destruct (C40_sets_partial c e values CR E LV FIT) as (s & Q & M & EV). fold vs in EV.
    pose proof (C58_after_evidences c b e values s R E Q) as AN. destruct (answering_usable _ AN) as [C U]. cbn [c_r] in C, U.
    pose proof (told_evidence c b e values s R E LV C M EV) as TE. fold vs in TE. fold A in TE.
    pose proof M as (HH & _ & _ & _ & VV & AA & _). pose proof (coh_good OK True _ C) as HG. rewrite HH in HG. fold F in HG.
    assert (PV : Permutation (sp_vars A) (sp_vars (contents s))). { change (Permutation (g_vars (r_g (c_r c))) (g_vars (r_g s))). rewrite VV. reflexivity. }
    assert (PL : Permutation (sp_facs A) (sp_facs A)) by reflexivity.
    assert (TW : Forall2 (stands_for F F) (sp_facs A) (sp_facs (contents s))).
    { change (Forall2 (stands_for F F) (g_all (r_g (c_r c))) (g_all (r_g s))). rewrite AA. clear. induction (g_all (r_g (c_r c))); constructor; auto. split; auto. }
    assert (ND : NoDup (sp_vars A)). { eapply NoDup_map_inv. apply (sh_vars _ _ (ci_shape _ (creach_inv c CR))). }
    assert (FV : forall f, In f (sp_facs A) -> incl (f_vars (F f)) (sp_vars A)).
    { intros f J w Jw. change (In w (g_vars (r_g (c_r c)))). rewrite <- VV. unfold F in Jw. rewrite <- HH in Jw.
      apply (src_vars_in True s C f w); auto. rewrite AA. exact J. }
    destruct (C58_marginals_partial (mkC s (c_pos c)) e' n v AN E' L) as (g & Qg); cbn [c_r]; try rewrite HH.
    - eapply twins_symmetric with (A := A); eauto.
    - eapply (twins_positive OK) with (A := A); eauto.
    - eapply twins_hidden with (A := A); eauto.
    - eapply twins_tree with (A := A); eauto.
    - exists s, g. split; auto. cbn [c_r] in Qg. unfold graph_of in Qg. cbn [c_r] in Qg. rewrite Qg. f_equal. apply map_ext. intros j. rewrite HH.
      eapply (twins_marginal OK) with (A := A); eauto. apply Hv.
  Qed.
  (** The same for the most probable values and for the joint distributions. *)
  Section Alike.
    Variables (F : nat -> func N) (A A' : spec).
    Hypothesis VV : sp_vars A' = sp_vars A.
    Hypothesis FF : sp_facs A' = sp_facs A.
    Hypothesis EE : forall v, In v (sp_vars A) -> sp_evidence A' v = sp_evidence A v.
    Lemma alike_agrees x : agrees A' x = agrees A x.
    Proof. unfold agrees. rewrite VV. assert (Q : forall l, incl l (sp_vars A) -> forallb (fun v => match sp_evidence A' v with Some k => val x v =? k | None => true end) l = forallb (fun v => match sp_evidence A v with Some k => val x v =? k | None => true end) l).
      { induction l as [|a l IH]; intros I; auto. cbn [forallb]. rewrite IH, EE; auto. apply I; simpl; auto. intros z J; apply I; simpl; auto. }
      apply Q. intros z; auto. Qed.
    Lemma alike_weight : weight F A' = weight F A.
    Proof. unfold weight. rewrite FF. reflexivity. Qed.
    Lemma alike_mass (W : asg -> N) P : mass W A' P = mass W A P.
    Proof. unfold mass. rewrite VV. apply sumL_ext. intros x _. rewrite alike_agrees. reflexivity. Qed.
    Lemma alike_possible x : possible A' x <-> possible A x.
    Proof. unfold possible. rewrite VV, alike_agrees. tauto. Qed.
    Lemma alike_best (W : asg -> N) x : most_probable W A' x <-> most_probable W A x.
    Proof. unfold most_probable. rewrite alike_possible. split; intros [H1 H2]; split; auto; intros y Y; apply H2; apply alike_possible; auto. Qed.
    Lemma alike_positive (W : asg -> N) : positive W A -> positive W A'.
    Proof. intros (x & X & P). exists x. split; auto. apply alike_possible; auto. Qed.
    Lemma alike_hidden v : hidden A' v <-> hidden A v.
    Proof. unfold hidden. rewrite VV. split; intros [J Q]; split; auto; rewrite EE in *; auto. Qed.
    Lemma alike_edge v w : hidden_edge F A' v w <-> hidden_edge F A v w.
    Proof. unfold hidden_edge, joins. rewrite FF, !alike_hidden. tauto. Qed.
    Lemma alike_linked v w : hidden_linked F A' v w <-> hidden_linked F A v w.
    Proof. split; intros R; induction R; try apply rt_refl; try (eapply rt_trans; eauto; fail); apply rt_step; apply alike_edge; auto. Qed.
    Lemma alike_symmetric : symmetric F A -> symmetric F A'.
    Proof. intros S f v w. unfold joins. rewrite FF, !alike_hidden. apply S. Qed.
    Lemma alike_floor : above_floor F A -> above_floor F A'.
    Proof. intros S f v w. rewrite FF, !alike_hidden. apply S. Qed.
    Lemma alike_tree v : tree_around F A v -> tree_around F A' v.
    Proof.
      intros T (c & (L & ND & E) & K). apply T. exists c. split; [|intros w J; apply alike_linked; auto]. split; auto. split; auto. intros i x y Q1 Q2. apply alike_edge. eapply E; eauto.
    Qed.
    Lemma alike_group g : group_of F A g -> group_of F A' g.
    Proof. intros (WG & NE & KN & TR). split; auto. split; auto. split. rewrite VV; auto. intros v J Hv. apply alike_tree, TR; auto. apply alike_hidden; auto. Qed.
    Lemma alike_inside vs : joined_inside F A vs -> joined_inside F A' vs.
    Proof.
      intros JI v w Jv Jw R. apply alike_linked in R. apply JI in R; auto. clear Jv Jw. induction R as [v w [Q1 Q2]| |]; [|apply rt_refl|eapply rt_trans; eauto]. apply rt_step. split; auto. apply alike_edge; auto.
    Qed.
    Lemma alike_one vs : (forall v, In v vs -> In v (sp_vars A)) -> one_observed A vs -> one_observed A' vs.
    Proof. intros K OO v w Jv Jw. unfold is_obs. rewrite !EE by auto. apply OO; auto. Qed.
  End Alike.
  Lemma told_returns (c : crf) b e values : clives b c -> env_ok e ->
    let vs := observed_variables e (graph_of c) in
    length values = length vs -> (forall k w x, nth_error vs k = Some w -> nth_error values k = Some x -> x < vsize w) ->
    let A := told (contents (c_r c)) vs values in
    exists s, set_evidences e values (c_r c) = Ret tt s /\ answering (mkC s (c_pos c)) /\ r_h s = r_h (c_r c) /\
      sp_vars (contents s) = sp_vars A /\ sp_facs (contents s) = sp_facs A /\ forall v, In v (sp_vars A) -> sp_evidence (contents s) v = sp_evidence A v.
  Proof.
    intros R E vs LV FIT A. pose proof (clives_creach b c R) as CR. destruct (C40_sets_partial c e values CR E LV FIT) as (s & Q & M & EV).
    pose proof (C58_after_evidences c b e values s R E Q) as AN. destruct (answering_usable _ AN) as [C U]. cbn [c_r] in C, U.
    pose proof (told_evidence c b e values s R E LV C M EV) as TE. pose proof M as (HH & _ & _ & _ & VV & AA & _).
    exists s. exact (conj Q (conj AN (conj HH (conj VV (conj AA TE))))).
  Qed.
  Theorem C58_conditional_map_partial : forall (c : crf) b e values e' n v, clives b c -> env_ok e -> env_ok e' -> 1 <= n ->
    let vs := observed_variables e (graph_of c) in
    length values = length vs -> (forall k w x, nth_error vs k = Some w -> nth_error values k = Some x -> x < vsize w) ->
    let F := r_h (c_r c) in let A := told (contents (c_r c)) vs values in
    symmetric F A -> above_floor F A -> positive (weight F A) A -> hidden A v -> tree_around F A v ->
    exists s j g, set_evidences e values (c_r c) = Ret tt s /\ get_map (r_h s) e' v n (r_g s) = Ret j g /\
      (exists x, most_probable (weight F A) A x /\ val x v = j) /\
      (forall x, most_probable (weight F A) A x -> j <= val x v).
  Proof.
    intros c b e values e' n v R E E' L vs LV FIT F A SY AF PO Hv T. destruct (told_returns c b e values R E LV FIT) as (s & Q & AN & HH & VV & FF & EE). fold vs A in VV, FF, EE. fold F in HH.
    destruct (C58_map_partial (mkC s (c_pos c)) e' n v AN E' L) as (j & g & Qg & (x & Mx & Vx) & Lx); cbn [c_r] in *; rewrite ?HH in *.
    - eapply alike_symmetric; eauto.
    - eapply alike_floor; eauto.
    - rewrite (alike_weight F A _ FF). eapply alike_positive; eauto.
    - eapply alike_hidden; eauto.
    - eapply alike_tree; eauto.
    - exists s, j, g. split; [exact Q|]. split. unfold graph_of in Qg. cbn [c_r] in Qg. rewrite HH. exact Qg. rewrite (alike_weight F A _ FF) in Mx, Lx. split.
      { exists x. split; [|exact Vx]. apply (alike_best A (contents s) VV EE). exact Mx. } intros y My. apply Lx. apply (alike_best A (contents s) VV EE). exact My.
  Qed.
  Theorem C58_conditional_joint_partial : forall (c : crf) b e values e' n g, clives b c -> env_ok e -> env_ok e' -> 1 <= n ->
    let vs := observed_variables e (graph_of c) in
    length values = length vs -> (forall k w x, nth_error vs k = Some w -> nth_error values k = Some x -> x < vsize w) ->
    let F := r_h (c_r c) in let A := told (contents (c_r c)) vs values in
    symmetric F A -> positive (weight F A) A -> group_of F A g -> joined_inside F A (g_soup g) -> one_observed A (g_soup g) ->
    exists s f g', set_evidences e values (c_r c) = Ret tt s /\ get_joint (r_h s) e' g n (r_g s) = Ret f g' /\ f_vars f = g_soup g /\
      exists k, (n0 < k)%num /\ forall l, valid_comb (map vsize (g_soup g)) l ->
        fval f l = (k * mass (weight F A) A (takes_all (g_soup g) l))%num.
  Proof.
    intros c b e values e' n g R E E' L vs LV FIT F A SY PO GO JI OO. destruct (told_returns c b e values R E LV FIT) as (s & Q & AN & HH & VV & FF & EE). fold vs A in VV, FF, EE. fold F in HH.
    destruct (C58_joint_partial (mkC s (c_pos c)) e' n g AN E' L) as (f & g' & Qg & Vf & k & Pk & V); cbn [c_r] in *; rewrite ?HH in *.
    - eapply alike_symmetric; eauto.
    - rewrite (alike_weight F A _ FF). eapply alike_positive; eauto.
    - eapply alike_group; eauto.
    - eapply alike_inside; eauto.
    - eapply alike_one; eauto. apply GO.
    - exists s, f, g'. split; [exact Q|]. split. unfold graph_of in Qg. cbn [c_r] in Qg. rewrite HH. exact Qg. split; auto. exists k. split; auto. intros l VL.
      rewrite (V l VL), (alike_weight F A _ FF), (alike_mass A (contents s) VV EE). reflexivity.
  Qed.
End P.

(** {1 Examples}

    The conditional random field made from the field of C49: the chain A - C - D - E,
    E observed, A, C and D hidden. *)
Notation chain_crf := (crf_of (crf_ctor env_id field_state true)).
Lemma chain_made : exists s, crf_ctor env_id field_state true = Ret chain_crf s.
Proof.
  assert (X : rdone (crf_ctor env_id field_state true) && negb (rthrew (crf_ctor env_id field_state true)) = true) by (vm_compute; reflexivity).
  destruct (crf_ctor env_id field_state true) as [c s|s| | |]; try discriminate. exists s. reflexivity.
Qed.
Lemma chain_answering : answering chain_crf.
Proof.
  destruct chain_made as [s Q]. eapply (proj1 (C58_after_construction env_id chain_crf s)); [apply gH_built| |apply env_id_ok|exact Q].
  apply (rreach_mono _ _ alert); [exact (fun _ _ _ => Logic.I)|exact field_reach].
Qed.
Lemma chain_nodup : NoDup (sp_vars (contents (c_r chain_crf))).
Proof. vm_compute. repeat (constructor; [simpl; intuition discriminate|]). constructor. Qed.
Lemma chain_tree v : tree_around (r_h (c_r chain_crf)) (contents (c_r chain_crf)) v.
Proof. apply (forestb_ok (r_h (c_r chain_crf))). exact chain_nodup. vm_compute. reflexivity. Qed.
Lemma chain_symmetric : symmetric (r_h (c_r chain_crf)) (contents (c_r chain_crf)).
Proof. apply (symmetricb_ok QcNum_ok). vm_compute. reflexivity. Qed.
Lemma chain_positive : positive (weight (r_h (c_r chain_crf)) (contents (c_r chain_crf))) (contents (c_r chain_crf)).
Proof. apply positiveb_ok. vm_compute. reflexivity. Qed.

Example C58_marginals_example : exists g, get_marginal (r_h (c_r chain_crf)) env_rev exC 2 (graph_of chain_crf) =
  Ret (map (marginal (weight (r_h (c_r chain_crf)) (contents (c_r chain_crf))) (contents (c_r chain_crf)) exC) (seq 0 2)) g.
Proof.
  apply (C58_marginals_partial QcNum_ok chain_crf env_rev 2 exC chain_answering env_rev_ok (le_S _ _ (le_n 1)) chain_symmetric chain_positive).
  - apply hiddenb_ok. vm_compute. reflexivity.
  - apply chain_tree.
Qed.
Example C58_map_example : exists j g, get_map (r_h (c_r chain_crf)) env_id exA 1 (graph_of chain_crf) = Ret j g.
Proof.
  destruct (C58_map_partial QcNum_ok chain_crf env_id 1 exA chain_answering env_id_ok (le_n 1) chain_symmetric) as (j & g & Q & _); eauto.
  - apply above_floorb_ok. vm_compute. reflexivity.
  - apply chain_positive.
  - apply hiddenb_ok. vm_compute. reflexivity.
  - apply chain_tree.
Qed.
Example C58_joint_example : exists f g, get_joint (r_h (c_r chain_crf)) env_id (mkGroup [exD; exC; exE] [exD; exC; exE]) 1 (graph_of chain_crf) = Ret f g /\ f_vars f = [exD; exC; exE].
Proof.
  destruct (C58_joint_partial QcNum_ok chain_crf env_id 1 (mkGroup [exD; exC; exE] [exD; exC; exE]) chain_answering env_id_ok (le_n 1) chain_symmetric chain_positive)
    as (f & g & Q1 & Q2 & _); eauto.
  - split; [split; vm_compute; repeat constructor; simpl; intuition discriminate|]. split; [discriminate|]. split; [apply knownb_ok; vm_compute; reflexivity|].
    intros v _ _. apply chain_tree.
  - apply (joinedb_ok (r_h (c_r chain_crf))). vm_compute. reflexivity.
  - apply one_observedb_ok. vm_compute. reflexivity.
Qed.
Example C58_observed_example : exists g, get_marginal (r_h (c_r chain_crf)) env_id exE 1 (graph_of chain_crf) = Ret [n0; n1] g.
Proof.
  destruct (C58_observed_partial QcNum_ok chain_crf env_id 1 exE 1 chain_answering env_id_ok (le_n 1)) as (g & Q).
  - apply symmetric_balanced. apply chain_symmetric.
  - apply positiveb_ok. vm_compute. reflexivity.
  - vm_compute. auto.
  - vm_compute. reflexivity.
  - exists g. exact Q.
Qed.
(** the weights are changed, then the evidence: the answer is that of the new
    weights and of the new evidence *)
Notation chain_weights := (mkC (rafter (c_r chain_crf) (ccall env_id (c_pos chain_crf) (CWeights [q 3 1]) (c_r chain_crf))) (c_pos chain_crf)).
Lemma weights_live (c : crf (N:=QcNum)) ws : clives false c -> forallb (forallb (fun f => negb (length (f_vars (r_h (c_r c) f)) =? 1))) (tunable_clusters (c_r c)) = true ->
  rdone (ccall env_id (c_pos c) (CWeights ws) (c_r c)) = true -> clives true (mkC (rafter (c_r c) (ccall env_id (c_pos c) (CWeights ws) (c_r c))) (c_pos c)).
Proof.
  intros L B X. assert (AL : allowed false (c_r c) (CWeights ws)).
  { rewrite forallb_forall in B. intros k f v Jc Jf Q. exfalso. apply B in Jc. rewrite forallb_forall in Jc. apply Jc in Jf. rewrite Q in Jf. discriminate. }
  destruct (ccall env_id (c_pos c) (CWeights ws) (c_r c)) as [a s|s| | |] eqn:Q; try discriminate X; cbn [rafter].
  - apply (CL_ret false c env_id (CWeights ws) a s L Logic.I AL env_id_ok Q).
  - apply (CL_thr false c env_id (CWeights ws) s L Logic.I AL env_id_ok Q).
Qed.
Lemma chain_weights_lives : clives true chain_weights.
Proof.
  apply (weights_live chain_crf).
  - apply answering_lives. exact chain_answering.
  - vm_compute. reflexivity.
  - vm_compute. reflexivity.
Qed.
Example C58_conditional_example : exists s g, set_evidences env_id [0] (c_r chain_weights) = Ret tt s /\
  get_marginal (r_h s) env_id exC 1 (r_g s) =
    Ret (map (marginal (weight (r_h (c_r chain_weights)) (told (contents (c_r chain_weights)) [exE] [0])) (told (contents (c_r chain_weights)) [exE] [0]) exC) (seq 0 2)) g /\
  get_marginal (r_h (c_r chain_crf)) env_id exC 1 (graph_of chain_crf) <> get_marginal (r_h s) env_id exC 1 (r_g s).
Proof.
  assert (OV : observed_variables env_id (graph_of chain_weights) = [exE]) by (vm_compute; reflexivity).
  pose proof (C58_conditional_partial QcNum_ok chain_weights true env_id [0] env_id 1 exC chain_weights_lives env_id_ok env_id_ok (le_n 1)) as K.
  cbv zeta in K. rewrite OV in K. destruct K as (s & g & Q1 & Q2).
  - reflexivity.
  - intros [|[|k]] w x Hw Hx; cbn [nth_error] in Hw, Hx; try discriminate Hw. injection Hw as <-. injection Hx as <-. vm_compute. repeat constructor.
  - apply (symmetricb_ok QcNum_ok). vm_compute. reflexivity.
  - apply positiveb_ok. vm_compute. reflexivity.
  - apply hiddenb_ok. vm_compute. reflexivity.
  - apply (forestb_ok (r_h (c_r chain_weights))). { vm_compute. repeat (constructor; [simpl; intuition discriminate|]). constructor. } vm_compute. reflexivity.
  - exists s, g. split; [exact Q1|]. split; [exact Q2|].
    assert (B : match get_marginal (r_h (c_r chain_crf)) env_id exC 1 (graph_of chain_crf) with
      | Ret (a :: _) _ => match set_evidences env_id [0] (c_r chain_weights) with
        | Ret _ s => match get_marginal (r_h s) env_id exC 1 (r_g s) with Ret (b :: _) _ => negb (neqb a b) | _ => false end | _ => false end | _ => false end = true) by (vm_compute; reflexivity).
    rewrite Q1 in B. intros Z. rewrite <- Z in B. destruct (get_marginal (r_h (c_r chain_crf)) env_id exC 1 (graph_of chain_crf)) as [[|a l] g0| | | |]; try discriminate B.
    apply negb_true_iff, (neqb_false QcNum_ok) in B. apply B. reflexivity.
Qed.

(** the same, for A most probable and for D and C together *)
Lemma chain_told_tree v : tree_around (r_h (c_r chain_weights)) (told (contents (c_r chain_weights)) [exE] [0]) v.
Proof. apply (forestb_ok (r_h (c_r chain_weights))). { vm_compute. repeat (constructor; [simpl; intuition discriminate|]). constructor. } vm_compute. reflexivity. Qed.
Example C58_conditional_map_example : exists s j g, set_evidences env_id [0] (c_r chain_weights) = Ret tt s /\ get_map (r_h s) env_rev exA 2 (r_g s) = Ret j g.
Proof.
  assert (OV : observed_variables env_id (graph_of chain_weights) = [exE]) by (vm_compute; reflexivity).
  pose proof (C58_conditional_map_partial QcNum_ok chain_weights true env_id [0] env_rev 2 exA chain_weights_lives env_id_ok env_rev_ok (le_S _ _ (le_n 1))) as K.
  cbv zeta in K. rewrite OV in K. destruct K as (s & j & g & Q1 & Q2 & _).
  - reflexivity.
  - intros [|[|k]] w x Hw Hx; cbn [nth_error] in Hw, Hx; try discriminate Hw. injection Hw as <-. injection Hx as <-. vm_compute. repeat constructor.
  - apply (symmetricb_ok QcNum_ok). vm_compute. reflexivity.
  - apply above_floorb_ok. vm_compute. reflexivity.
  - apply positiveb_ok. vm_compute. reflexivity.
  - apply hiddenb_ok. vm_compute. reflexivity.
  - apply chain_told_tree.
  - exists s, j, g. split; [exact Q1|exact Q2].
Qed.
Example C58_conditional_joint_example : exists s f g, set_evidences env_id [0] (c_r chain_weights) = Ret tt s /\
  get_joint (r_h s) env_rev (mkGroup [exD; exC; exE] [exD; exC; exE]) 2 (r_g s) = Ret f g /\ f_vars f = [exD; exC; exE].
Proof.
  assert (OV : observed_variables env_id (graph_of chain_weights) = [exE]) by (vm_compute; reflexivity).
  pose proof (C58_conditional_joint_partial QcNum_ok chain_weights true env_id [0] env_rev 2 (mkGroup [exD; exC; exE] [exD; exC; exE]) chain_weights_lives env_id_ok env_rev_ok (le_S _ _ (le_n 1))) as K.
  cbv zeta in K. rewrite OV in K. destruct K as (s & f & g & Q1 & Q2 & Q3 & _).
  - reflexivity.
  - intros [|[|k]] w x Hw Hx; cbn [nth_error] in Hw, Hx; try discriminate Hw. injection Hw as <-. injection Hx as <-. vm_compute. repeat constructor.
  - apply (symmetricb_ok QcNum_ok). vm_compute. reflexivity.
  - apply positiveb_ok. vm_compute. reflexivity.
  - split; [split; vm_compute; repeat constructor; simpl; intuition discriminate|]. split; [discriminate|]. split; [apply knownb_ok; vm_compute; reflexivity|].
    intros v _ _. apply chain_told_tree.
  - apply (joinedb_ok (r_h (c_r chain_weights))). vm_compute. reflexivity.
  - apply one_observedb_ok. vm_compute. reflexivity.
  - exists s, f, g. split; [exact Q1|]. split; [exact Q2|exact Q3].
Qed.

(** {1 The evidences must be set again after the weights}

    The messages of the observed variables are those of the factors when the
    evidences were set: after [setWeights] the answers are not those of the new
    weights (A - B and C - A are tunable, B and C observed). *)
Lemma wrong_answer (l l' : list QcNum) : match l, l' with a :: _, b :: _ => negb (neqb a b) | _, _ => false end = true -> l <> l'.
Proof.
  destruct l as [|a l], l' as [|b l']; try discriminate. intros Q E. injection E as -> _. apply negb_true_iff, (neqb_false QcNum_ok) in Q. apply Q. reflexivity.
Qed.
Theorem C58_weights_refuted : exists (c : crf (N:=QcNum)) ws s l g, clives false c /\ set_weights ws (c_r c) = Ret tt s /\
  let F := r_h s in let A := contents s in
  symmetric F A /\ positive (weight F A) A /\ hidden A exA /\ tree_around F A exA /\
  get_marginal F env_id exA 1 (r_g s) = Ret l g /\ l <> map (marginal (weight F A) A exA) (seq 0 (vsize exA)).
Proof.
  set (s := rafter (c_r demo_crf) (set_weights [q 3 1; q 1 1] (c_r demo_crf))).
  assert (B : match get_marginal (r_h s) env_id exA 1 (r_g s) with
    | Ret l _ => match l, map (marginal (weight (r_h s) (contents s)) (contents s) exA) (seq 0 (vsize exA)) with a :: _, b :: _ => negb (neqb a b) | _, _ => false end
    | _ => false end = true) by (vm_compute; reflexivity).
  assert (R : match set_weights [q 3 1; q 1 1] (c_r demo_crf) with Ret _ _ => true | _ => false end = true) by (vm_compute; reflexivity).
  assert (Q : set_weights [q 3 1; q 1 1] (c_r demo_crf) = Ret tt s).
  { subst s. destruct (set_weights [q 3 1; q 1 1] (c_r demo_crf)) as [[] t| | | |]; try discriminate R. reflexivity. }
  destruct (get_marginal (r_h s) env_id exA 1 (r_g s)) as [l g| | | |] eqn:G; try discriminate B.
  exists demo_crf, [q 3 1; q 1 1], s, l, g. split.
  { destruct demo_crf_made as [s1 Q1]. eapply CL_field; [apply cH_built|apply crf_field_reach|apply env_id_ok|exact Q1]. }
  split; [exact Q|]. cbv zeta. split; [apply (symmetricb_ok QcNum_ok); vm_compute; reflexivity|]. split; [apply positiveb_ok; vm_compute; reflexivity|].
  split; [apply hiddenb_ok; vm_compute; reflexivity|]. split.
  { apply (forestb_ok (r_h s)). vm_compute. repeat (constructor; [simpl; intuition discriminate|]). constructor. vm_compute. reflexivity. }
  split; [exact G|]. apply wrong_answer. exact B.
Qed.

Print Assumptions C58_after_evidences.
Print Assumptions C58_after_construction.
Print Assumptions C58_marginals_partial.
Print Assumptions C58_map_partial.
Print Assumptions C58_joint_partial.
Print Assumptions C58_observed_partial.
Print Assumptions C58_conditional_partial.
Print Assumptions C58_conditional_map_partial.
Print Assumptions C58_conditional_joint_partial.
Print Assumptions C58_weights_refuted.
