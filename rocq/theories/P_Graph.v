(** Properties C18 - C21, C47: variables, clusters, evidences, insertion of
    factors, lookup by name. The histories are those of Hist.v: any sequence of
    calls of the API, each one with arbitrary iteration orders of the hash
    containers, going on after the exceptions. The observable state is compared
    with the specification of GraphSpec.v. *)
From Coq Require Import String List Arith Bool Lia Permutation Relations QArith Qcanon.
From Verif Require Import Res Num Categoric Combs Func FuncProofs GroupProofs FactorProofs FactorApi Special SpecialProofs
  Graph GraphLemmas Clusters Belief Query GraphInv EvidInv BeliefInv GraphSpec Hist P_Categoric P_Factor Demo.
Import ListNotations.
Open Scope nat_scope.

Section P.
  Context {N : num} (OK : num_ok N).
  Variable H : nat -> func N.
  (** the factor objects are any objects the API can build *)
  Hypothesis HB : forall f, built (H f).
  Notation gst := (gst (N:=N)).
  Implicit Types s : gst.

  Local Lemma HG : solids H.
  Proof. apply built_solids, HB. Qed.

  Definition prod_dec (x y : string * nat) : {x = y} + {x <> y}.
  Proof. decide equality. apply Nat.eq_dec. apply string_dec. Defined.
  (** the variables of a factor have different names or sizes *)
  Lemma fvars_keys f x y : f_vars (H f) = [x; y] -> vkey x = vkey y -> x <> y -> False.
  Proof.
    intros E K _. destruct (HG f) as ((_ & W) & _). unfold wf_group in W. change (f_vars (H f)) with (g_soup (f_group (H f))) in E. rewrite E in W. destruct W as [W _].
    inversion W as [|? ? F]. apply F. simpl. auto.
  Qed.
  Lemma key_dec (x y : var) : {vkey x = vkey y} + {vkey x <> vkey y}.
  Proof. decide equality. apply Nat.eq_dec. apply string_dec. Qed.
  Lemma var_eq_dec (x y : var) : {x = y} + {x <> y}.
  Proof. decide equality; try apply Nat.eq_dec. apply string_dec. Qed.

  (** the evidences reported by the model: the variable [v] has the value [k] *)
  Definition evidence s v k : Prop := exists a, nth_error (g_vars s) a = Some v /\ g_ev s a = Some k.
  Definition hidden s v : Prop := In v (g_vars s) /\ forall k, ~ evidence s v k.

  Lemma evidence_at s fs a v k : core H s fs -> var_at s a v -> (evidence s v k <-> g_ev s a = Some k).
  Proof.
    intros C Ha. split.
    - intros (b & Hb & E). destruct (var_at_inj s a b v v) as [-> _]; auto. apply C.
    - intros E. exists a. auto.
  Qed.
  Lemma hidden_at s fs a v : core H s fs -> var_at s a v -> (hidden s v <-> g_ev s a = None).
  Proof.
    intros C Ha. split.
    - intros [_ F]. destruct (g_ev s a) eqn:E; auto. exfalso. eapply F. exists a. eauto.
    - intros E. split. eapply nth_error_In; eauto. intros k Q. apply (evidence_at s fs a) in Q; auto. congruence.
  Qed.

  (** {1 C18} *)
  Lemma collect_vars s (l : list nat) : NoDup (map vkey (g_vars s)) -> NoDup l -> (forall a, In a l -> a < gsize s) ->
    let r := fold_left (fun acc a => match nth_error (g_vars s) a with Some v => vset_add acc v | None => acc end) l [] in
    forall d, r = map (fun a => nth a (g_vars s) d) l.
  Proof.
    intros ND NDl LT r d. subst r.
    assert (G : forall l acc, (forall a, In a l -> a < gsize s) -> NoDup (map vkey acc ++ map (fun a => vkey (nth a (g_vars s) d)) l) ->
      fold_left (fun acc a => match nth_error (g_vars s) a with Some v => vset_add acc v | None => acc end) l acc =
      acc ++ map (fun a => nth a (g_vars s) d) l).
    { clear. induction l as [|a l IH]; intros acc LT ND; simpl. rewrite app_nil_r; auto.
      assert (La : a < length (g_vars s)) by (apply LT; simpl; auto).
      rewrite (nth_error_nth' _ d La).
      assert (E : vset_add acc (nth a (g_vars s) d) = acc ++ [nth a (g_vars s) d]).
      { apply vset_add_new. simpl in ND. apply NoDup_split_mid in ND. tauto. }
      rewrite E, IH.
      - rewrite <- app_assoc. reflexivity.
      - intros; apply LT; simpl; auto.
      - rewrite map_app, <- app_assoc. exact ND. }
    rewrite G; auto. simpl.
    rewrite <- (map_map (fun a => nth a (g_vars s) d) vkey).
    assert (I : forall x y, In x l -> In y l -> vkey (nth x (g_vars s) d) = vkey (nth y (g_vars s) d) -> x = y).
    { intros x y Ix Iy E. apply LT in Ix, Iy. eapply (var_at_inj s x y); eauto; apply nth_error_nth'; auto. }
    clear - NDl I. induction l as [|a l IH]; simpl; constructor; inversion NDl; subst.
    - rewrite map_map. intros Q. apply in_map_iff in Q as (b & Eb & Ib). apply H1. rewrite (I a b); simpl; auto.
    - apply IH; auto. intros; apply I; simpl; auto.
  Qed.

  Lemma partition_inv s e : inv H s -> env_ok e ->
    NoDup (map vkey (g_vars s)) /\
    Permutation (hidden_variables e s ++ observed_variables e s) (g_vars s) /\
    (forall v, In v (observed_variables e s) <-> exists k, evidence s v k).
  Proof.
    intros [C CS] E.
    split. apply C.
    set (hl := flat_map (fun cl => e_ord e (gsize s) (cl_nodes cl)) (g_cl s)).
    set (ol := e_ord e (gsize s) (keys (gsize s) (g_ev s))).
    assert (PH : Permutation hl (hid s)).
    { rewrite <- (cp_perm _ _ _ (cs_comp _ CS)). unfold hl. clear - E. induction (g_cl s) as [|cl l IH]; simpl; auto.
      rewrite IH. apply Permutation_app_tail. apply E. }
    assert (PO : Permutation ol (keys (gsize s) (g_ev s))) by apply E.
    assert (LH : forall a, In a hl -> a < gsize s) by (intros a I; rewrite PH in I; apply hid_In in I; tauto).
    assert (LO : forall a, In a ol -> a < gsize s) by (intros a I; rewrite PO in I; apply keys_In in I; tauto).
    assert (NH : NoDup hl) by (eapply perm_NoDup; [exact PH|apply hid_NoDup]).
    assert (NO : NoDup ol) by (eapply perm_NoDup; [exact PO|apply keys_NoDup]).
    destruct (g_vars s) as [|d0 vs0] eqn:EV0.
    { assert (ZH : hl = []) by (destruct hl as [|x l]; auto; exfalso; specialize (LH x (or_introl eq_refl)); unfold gsize in LH; rewrite EV0 in LH; simpl in LH; lia).
      assert (ZO : ol = []) by (destruct ol as [|x l]; auto; exfalso; specialize (LO x (or_introl eq_refl)); unfold gsize in LO; rewrite EV0 in LO; simpl in LO; lia).
      unfold hidden_variables, observed_variables. fold hl ol. rewrite ZH, ZO. simpl. split; auto. intros v. split. intros [].
      intros (k & a & Q & _). rewrite EV0 in Q. destruct a; discriminate. }
    assert (EH : hidden_variables e s = map (fun a => nth a (g_vars s) d0) hl) by (apply collect_vars; auto; apply C).
    assert (EO : observed_variables e s = map (fun a => nth a (g_vars s) d0) ol) by (apply collect_vars; auto; apply C).
    rewrite <- EV0 in *. split.
    - rewrite EH, EO, <- map_app. transitivity (map (fun a => nth a (g_vars s) d0) (seq 0 (gsize s))).
      2:{ unfold gsize. rewrite map_nth_seq. auto. }
      apply Permutation_map. rewrite PH, PO. symmetry. apply (filter_split_perm (fun a => is_some (g_ev s a))).
    - intros v. rewrite EO, in_map_iff. split.
      + intros (a & <- & I). rewrite PO in I. apply keys_In in I as (L & k & Q). exists k, a. split; auto. apply nth_error_nth'; auto.
      + intros (k & a & Hv & Q). exists a. split. apply nth_error_nth; auto. rewrite PO. apply keys_In. split; eauto. eapply var_at_lt; eauto.
  Qed.
  Theorem C18_partition_partial : forall ops s e, reach H no_failed_removal ops s -> env_ok e ->
    NoDup (map vkey (g_vars s)) /\
    Permutation (hidden_variables e s ++ observed_variables e s) (g_vars s) /\
    (forall v, In v (observed_variables e s) <-> exists k, evidence s v k).
  Proof.
    intros ops s e R E. destruct (reach_abs H HG no_failed_removal ops s (fun _ _ h => h) R) as [I AB]. apply partition_inv; auto.
  Qed.

  (** a variable of the model keeps its instance and its position *)
  Lemma sp_insert_grows A v : exists l, sp_vars (sp_insert A v) = sp_vars A ++ l.
  Proof. unfold sp_insert. destruct (sp_known A v); [exists []; rewrite app_nil_r|exists [v]]; auto. Qed.
  Lemma sp_removes_vars vs : forall A, sp_vars (snd (sp_removes A vs)) = sp_vars A.
  Proof. induction vs as [|v vs IH]; intros A; simpl; auto. destruct (sp_observed A v); auto. rewrite IH. auto. Qed.
  Lemma sp_next_grows fv A op : exists l, sp_vars (sp_next fv A op) = sp_vars A ++ l.
  Proof.
    assert (Z : exists l, sp_vars A = sp_vars A ++ l) by (exists []; rewrite app_nil_r; auto).
    unfold sp_next. destruct op; simpl; auto.
    - destruct f as [f|]; simpl; auto. unfold sp_add. destruct (existsb _ _); auto. destruct (fv f) as [|x [|y [|]]]; auto.
      + destruct (sp_conflict A x); auto. apply sp_insert_grows.
      + destruct (sp_conflict A x); auto. destruct (sp_conflict A y); [apply sp_insert_grows|]. destruct (sp_joined fv A x y); auto.
        destruct (sp_insert_grows A x) as [l1 E1], (sp_insert_grows (sp_insert A x) y) as [l2 E2]. simpl. rewrite E2, E1, <- app_assoc. eauto.
    - unfold sp_set_ev. destruct (_ && _); auto.
    - destruct (sp_named A n); auto. unfold sp_set_ev. destruct (_ && _); auto.
    - unfold sp_remove. destruct (sp_observed A v); auto.
    - destruct (sp_named A n); auto. unfold sp_remove. destruct (sp_observed A v); auto.
    - destruct (sp_removes A vs) as [t A'] eqn:Q. exists []. rewrite app_nil_r. change A' with (snd (t, A')). rewrite <- Q. apply sp_removes_vars.
    - destruct (sp_names A ns) as [vs|]; auto. destruct (sp_removes A (sp_dedup vs)) as [t A'] eqn:Q. exists []. rewrite app_nil_r.
      change A' with (snd (t, A')). rewrite <- Q. apply sp_removes_vars.
  Qed.
  Theorem C18_variables_stay : forall ops more s s',
    reach H no_failed_removal ops s -> reach H no_failed_removal (ops ++ more) s' ->
    exists l, g_vars s' = g_vars s ++ l.
  Proof.
    intros ops more s s' R R'. destruct (reach_abs H HG no_failed_removal ops s (fun _ _ h => h) R) as [_ AB].
    destruct (reach_abs H HG no_failed_removal _ s' (fun _ _ h => h) R') as [_ AB'].
    rewrite (ab_vars _ _ AB), (ab_vars _ _ AB'). unfold sp_run. rewrite fold_left_app. generalize (fold_left (sp_next (fvars H)) ops spec_empty) as A.
    clear. induction more as [|op more IH]; intros A; simpl. exists []. rewrite app_nil_r; auto.
    destruct (IH (sp_next (fvars H) A op)) as [l E]. destruct (sp_next_grows (fvars H) A op) as [l' E']. exists (l' ++ l).
    rewrite E, E', app_assoc. auto.
  Qed.

  (** {1 C19} *)

  (** a binary factor of the model connects two hidden variables *)
  Definition connected s x y : Prop :=
    hidden s x /\ hidden s y /\ exists f, In f (g_all s) /\ (f_vars (H f) = [x; y] \/ f_vars (H f) = [y; x]).
  (** the variables of a cluster *)
  Definition in_cluster s (cl : cluster) x : Prop := exists a, In a (cl_nodes cl) /\ nth_error (g_vars s) a = Some x.

  Lemma eact_connected s a b x y : inv H s -> var_at s a x -> var_at s b y -> g_ev s a = None -> g_ev s b = None ->
    (eact s a b <-> connected s x y).
  Proof.
    intros [C CS] Ha Hb Ea Eb. split.
    - intros [c Q]. destruct (co_act _ _ _ C a b c Q) as (_ & I & va & vb & Ha' & Hb' & E).
      rewrite (var_at_fun s a x va), (var_at_fun s b y vb); auto.
      split; [|split]; [apply (hidden_at s (g_all s) a)|apply (hidden_at s (g_all s) b)|]; auto. exists (c_fac c). auto.
    - intros (_ & _ & f & I & E). destruct (co_fac _ _ _ C f I) as [(v & u & E' & _)|(va & vb & u & w & c & E' & Hu & Hw & Hc & _)].
      + unfold fvars in E'. rewrite E' in E. destruct E; discriminate.
      + assert (K : (u = a /\ w = b) \/ (u = b /\ w = a)).
        { unfold fvars in E'. rewrite E' in E. destruct E as [E|E]; injection E as -> ->; [left|right]; split;
          eapply (var_at_inj s); eauto; apply C. }
        assert (Z : act s u w = Some c).
        { destruct Hc as [Hc|Hc]; auto. rewrite (co_hh _ _ _ C) in Hc. discriminate. destruct K as [[-> ->]|[-> ->]]; auto.
          destruct K as [[-> ->]|[-> ->]]; auto. }
        destruct K as [[-> ->]|[-> ->]]. exists c; auto. destruct (co_act_sym _ _ _ C _ _ _ Z) as (c' & Z' & _). exists c'; auto.
  Qed.

  Lemma linked_connected s a b x y : inv H s -> var_at s a x -> var_at s b y -> In a (hid s) ->
    (linked (eact s) (fun z => In z (hid s)) a b <-> clos_refl_trans var (connected s) x y).
  Proof.
    intros I Ha Hb Hi. pose proof I as [C CS]. split.
    - intros L. revert x y Ha Hb. induction L as [a b (Q & Ia & Ib)|a|a c b L1 IH1 L2 IH2]; intros x y Ha Hb.
      + apply rt_step. apply hid_In in Ia as [_ Ia]. apply hid_In in Ib as [_ Ib]. apply (eact_connected s a b); auto.
      + rewrite (var_at_fun s a x y); auto. apply rt_refl.
      + assert (Ic : In c (hid s)).
        { apply (linked_closed (eact s) (fun z => In z (hid s)) (fun z => In z (hid s)) a c); auto. }
        destruct (var_at_ex s c) as [z Hz]. { apply hid_In in Ic; tauto. }
        eapply rt_trans; eauto.
    - intros L. revert a b Ha Hb Hi. induction L as [x y (Hx & Hy & Q)|x|x z y L1 IH1 L2 IH2]; intros a b Ha Hb Hi.
      + pose proof Hx as Hx'. pose proof Hy as Hy'. apply (hidden_at s (g_all s) a) in Hx'; auto. apply (hidden_at s (g_all s) b) in Hy'; auto.
        apply rt_step. split; [|split; auto].
        * apply (eact_connected s a b x y); auto. split; auto.
        * apply hid_In. split; auto. eapply var_at_lt; eauto.
      + destruct (var_at_inj s a b x x) as [-> _]; auto. apply C. apply rt_refl.
      + assert (K : exists c, var_at s c z /\ In c (hid s)).
        { assert (Hz : hidden s z \/ z = x). { clear - L1. induction L1 as [x z (A & B & _)| |]; auto. destruct IHL1_2; auto. subst. auto. }
          destruct Hz as [Hz| ->]; [|exists a; auto]. destruct (In_nth_error (g_vars s) z) as [c Hc]. apply Hz.
          exists c. split; auto. apply hid_In. split. eapply var_at_lt; eauto. eapply (hidden_at s (g_all s) c); eauto. }
        destruct K as (c & Hc & Ic). apply rt_trans with c. apply IH1; auto. apply IH2; auto.
  Qed.

  Theorem C19_clusters_partial : forall ops s, reach H no_failed_removal ops s ->
    (* the clusters have no empty set and hold exactly the hidden variables *)
    (forall cl, In cl (g_cl s) -> exists x, in_cluster s cl x) /\
    (forall x, hidden s x <-> exists cl, In cl (g_cl s) /\ in_cluster s cl x) /\
    (* two hidden variables are in the same cluster when a chain of factors joins them *)
    (forall i j ci cj x y, nth_error (g_cl s) i = Some ci -> nth_error (g_cl s) j = Some cj ->
       in_cluster s ci x -> in_cluster s cj y ->
       (i = j <-> clos_refl_trans var (connected s) x y)).
  Proof.
    intros ops s R. destruct (reach_abs H HG no_failed_removal ops s (fun _ _ h => h) R) as [I AB]. pose proof I as [C CS].
    splits.
    - intros cl Ic. assert (Z : cl_nodes cl <> []) by (apply (cp_ne _ _ _ (cs_comp _ CS)); apply in_map; auto).
      destruct (cl_nodes cl) as [|a l] eqn:En; [congruence|].
      destruct (clus_hidden s cl a CS Ic) as [L _]. rewrite En; simpl; auto.
      destruct (var_at_ex s a L) as [v Hv]. exists v, a. rewrite En. split; simpl; auto.
    - intros x. split.
      + intros Hx. destruct (In_nth_error (g_vars s) x) as [a Ha]. apply Hx.
        destruct (clus_has s a CS) as (i & cl & Hi & Ia). eapply var_at_lt; eauto. eapply (hidden_at s (g_all s) a); eauto.
        exists cl. split. eapply nth_error_In; eauto. exists a. auto.
      + intros (cl & Ic & a & Ia & Ha). eapply (hidden_at s (g_all s) a); eauto. eapply clus_hidden; eauto.
    - intros i j ci cj x y Hi Hj (a & Ia & Ha) (b & Ib & Hb).
      assert (Hid : In a (hid s)). { apply hid_In. eapply clus_hidden; eauto. eapply nth_error_In; eauto. }
      rewrite <- (linked_connected s a b x y); auto.
      assert (SY : forall x y, eact s x y -> eact s y x).
      { intros u v [c Q]. destruct (co_act_sym _ _ _ C _ _ _ Q) as (c' & Q' & _). exists c'; auto. }
      rewrite <- (components_same (eact s) (hid s) (map cl_nodes (g_cl s)) (cl_nodes ci) a b SY (cs_comp _ CS)); auto.
      2:{ apply in_map. eapply nth_error_In; eauto. }
      split.
      + intros ->. rewrite Hi in Hj. injection Hj as ->. auto.
      + intros Ib'. eapply (clus_index s i j ci cj b); eauto.
  Qed.

  (** {1 C20} *)
  Notation run ops := (sp_run (fvars H) ops).

  Lemma reach_ok ops s : reach H no_failed_removal ops s -> inv H s /\ abs s (run ops).
  Proof. apply (reach_abs H HG no_failed_removal ops s). auto. Qed.

  Lemma abs_evidence s A v k : core H s (g_all s) -> abs s A ->
    (evidence s v k <-> In v (g_vars s) /\ sp_ev A (vname v, vsize v) = Some k).
  Proof.
    intros C AB. split.
    - intros (a & Ha & E). split. eapply nth_error_In; eauto. rewrite <- E. symmetry. apply (ab_ev _ _ AB). exact Ha.
    - intros [I E]. apply In_nth_error in I as [a Ha]. exists a. split; auto. rewrite (ab_ev _ _ AB a v Ha). exact E.
  Qed.

  (** the evidences are those recorded by the specification of the history *)
  Theorem C20_evidences_partial : forall ops s, reach H no_failed_removal ops s ->
    forall v k, evidence s v k <-> In v (sp_vars (run ops)) /\ sp_ev (run ops) (vname v, vsize v) = Some k.
  Proof.
    intros ops s R v k. destruct (reach_ok ops s R) as [[C CS] AB]. rewrite (abs_evidence s _ v k C AB), (ab_vars _ _ AB). tauto.
  Qed.

  (** setEvidence: throws, with no effect, exactly when the variable is not in
      the model or the value is out of range; otherwise records the value *)
  Theorem C20_set_evidence_partial : forall ops s e v k, reach H no_failed_removal ops s -> env_ok e ->
    let known := exists w, In w (g_vars s) /\ vkey w = vkey v in
    (known /\ k < vsize v ->
       exists s', set_evidence H e s v k = Ret tt s' /\ g_vars s' = g_vars s /\ g_all s' = g_all s /\
         forall w j, evidence s' w j <-> (In w (g_vars s) /\ vkey w = vkey v /\ j = k) \/ (vkey w <> vkey v /\ evidence s w j)) /\
    (~ (known /\ k < vsize v) -> set_evidence H e s v k = Thr s).
  Proof.
    intros ops s e v k R E known. destruct (reach_ok ops s R) as [I AB]. pose proof I as [C CS].
    destruct (set_does H HG s _ e v k I AB E) as (s' & Q & I' & AB' & _).
    assert (KN : sp_known (run ops) v = true <-> known).
    { unfold sp_known, known. rewrite <- (ab_vars _ _ AB), existsb_key, in_map_iff. split; intros (w & A & B); exists w; auto. }
    unfold sp_set_ev in Q, AB'. split.
    - intros [K L]. apply KN in K. apply Nat.ltb_lt in L. rewrite K, L in Q, AB'. simpl in Q, AB'. exists s'. splits; auto.
      + rewrite (ab_vars _ _ AB'), (ab_vars _ _ AB). auto.
      + rewrite (ab_all _ _ AB'), (ab_all _ _ AB). auto.
      + intros w j. rewrite (abs_evidence s' _ w j (proj1 I') AB'), (abs_evidence s _ w j C AB), (ab_vars _ _ AB'), (ab_vars _ _ AB). simpl.
        change (vname w, vsize w) with (vkey w). change (vname v, vsize v) with (vkey v).
        destruct (key_dec w v) as [-> | NE].
        * rewrite upd_ev_eq. split. intros [? [= <-]]. left; auto. intros [(? & ? & ->)|[F _]]; [auto|congruence].
        * rewrite upd_ev_ne by auto. split. intros [? ?]. right. auto. intros [(_ & F & _)|[_ ?]]; [congruence|auto].
    - intros NK. destruct (set_evidence_ok H HG s (g_all s) e v k C CS E) as [[_ T]|(L & a & s2 & F & _)]; auto.
      exfalso. apply NK. split; auto. apply find_node_spec in F as (w & Hw & Ek); [|apply C]. exists w. split; auto.
      eapply nth_error_In; eauto.
  Qed.

  (** removeEvidence: throws, with no effect, exactly when the variable has no
      evidence; otherwise drops that evidence only *)
  Theorem C20_remove_evidence_partial : forall ops s e v, reach H no_failed_removal ops s -> env_ok e ->
    let observed := exists w k, vkey w = vkey v /\ evidence s w k in
    (observed ->
       exists s', remove_evidence e s v = Ret tt s' /\ g_vars s' = g_vars s /\ g_all s' = g_all s /\
         forall w j, evidence s' w j <-> vkey w <> vkey v /\ evidence s w j) /\
    (~ observed -> exists s', remove_evidence e s v = Thr s' /\ g_vars s' = g_vars s /\ g_all s' = g_all s /\
         forall w j, evidence s' w j <-> evidence s w j).
  Proof.
    intros ops s e v R E observed. destruct (reach_ok ops s R) as [I AB]. pose proof I as [C CS].
    destruct (remove_does H s _ e v I AB E) as (s' & Q & I' & AB' & _).
    assert (KN : sp_observed (run ops) v = true <-> observed).
    { unfold sp_observed, sp_known, observed. rewrite andb_true_iff, <- (ab_vars _ _ AB), existsb_key, in_map_iff. split.
      - intros [(w & A & B) D]. destruct (sp_ev (run ops) (vname v, vsize v)) as [k|] eqn:Ek; [|discriminate].
        exists w, k. split; auto. apply (abs_evidence s _ w k C AB). split; auto. change (vname w, vsize w) with (vkey w). rewrite A. exact Ek.
      - intros (w & k & A & B). apply (abs_evidence s _ w k C AB) in B as [B1 B2]. split. exists w; auto.
        change (vname w, vsize w) with (vkey w) in B2. rewrite A in B2. change (vname v, vsize v) with (vkey v). rewrite B2. auto. }
    unfold sp_remove in Q, AB'. split.
    - intros K. apply KN in K. rewrite K in Q, AB'. simpl in Q, AB'. exists s'. splits; auto.
      + rewrite (ab_vars _ _ AB'), (ab_vars _ _ AB). auto.
      + rewrite (ab_all _ _ AB'), (ab_all _ _ AB). auto.
      + intros w j. rewrite (abs_evidence s' _ w j (proj1 I') AB'), (abs_evidence s _ w j C AB), (ab_vars _ _ AB'), (ab_vars _ _ AB). simpl.
        change (vname w, vsize w) with (vkey w). change (vname v, vsize v) with (vkey v).
        destruct (key_dec w v) as [-> | NE].
        * rewrite upd_ev_eq. split. intros [_ F]; discriminate. intros [F _]; congruence.
        * rewrite upd_ev_ne by auto. split; tauto.
    - intros K. destruct (sp_observed (run ops) v) eqn:O. exfalso; apply K, KN; auto. simpl in Q, AB'. exists s'. splits; auto.
      + rewrite (ab_vars _ _ AB'), (ab_vars _ _ AB). auto.
      + rewrite (ab_all _ _ AB'), (ab_all _ _ AB). auto.
      + intros w j. rewrite (abs_evidence s' _ w j (proj1 I') AB'), (abs_evidence s _ w j C AB), (ab_vars _ _ AB'), (ab_vars _ _ AB). tauto.
  Qed.

  (** removeAllEvidences never fails and leaves no evidence *)
  Theorem C20_remove_all_partial : forall ops s e, reach H no_failed_removal ops s -> env_ok e ->
    exists s', remove_all_evidences e s = Ret tt s' /\ g_vars s' = g_vars s /\ g_all s' = g_all s /\
      forall w j, ~ evidence s' w j.
  Proof.
    intros ops s e R E. destruct (reach_ok ops s R) as [I AB]. destruct (remove_all_does H s _ e I AB E) as (s' & Q & I' & AB' & _).
    exists s'. splits; auto.
    - rewrite (ab_vars _ _ AB'), (ab_vars _ _ AB). auto.
    - rewrite (ab_all _ _ AB'), (ab_all _ _ AB). auto.
    - intros w j F. apply (abs_evidence s' _ w j (proj1 I') AB') in F as [_ F]. discriminate.
  Qed.

  (** {1 C21} *)

  (** a variable with the same name and size but another object is in the model *)
  Definition other_instance s v : Prop := exists w, In w (g_vars s) /\ vkey w = vkey v /\ w <> v.
  Definition connects (f : nat) x y : Prop := f_vars (H f) = [x; y] \/ f_vars (H f) = [y; x].
  Definition rejected s (f : nat) : Prop :=
    In f (g_all s) \/
    (length (f_vars (H f)) <> 1 /\ length (f_vars (H f)) <> 2) \/
    (exists v, In v (f_vars (H f)) /\ other_instance s v) \/
    (exists x y g, f_vars (H f) = [x; y] /\ In g (g_all s) /\ connects g x y).

  Lemma conflict_other s v : conflict s v <-> other_instance s v.
  Proof.
    unfold conflict, other_instance. split; intros (w & A & B & D); exists w; splits; auto.
  Qed.

  (** the insertion throws exactly in the listed cases; otherwise it adds the
      factor and the variables the model does not know yet. In both cases the
      other factors and the evidences are those of before. *)
  Theorem C21_insertion_partial : forall ops s f, reach H no_failed_removal ops s ->
    let same_evidences s' := forall w j, evidence s' w j <-> evidence s w j in
    (rejected s f -> exists s', add_distribution H s (Some f) = Thr s' /\ g_all s' = g_all s /\ same_evidences s' /\
       (g_vars s' = g_vars s \/ exists x y, f_vars (H f) = [x; y] /\ other_instance s y /\ g_vars s' = g_vars s ++ [x])) /\
    (~ rejected s f -> exists s', add_distribution H s (Some f) = Ret tt s' /\ g_all s' = g_all s ++ [f] /\ same_evidences s' /\
       (exists l, g_vars s' = g_vars s ++ l /\ incl l (f_vars (H f)) /\ incl (f_vars (H f)) (g_vars s'))) /\
    add_distribution H s None = Thr s.
  Proof.
    intros ops s f R same. destruct (reach_ok ops s R) as [I AB]. pose proof I as [C CS].
    pose proof (add_distribution_ok H HG s (Some f) I) as O.
    assert (SE : forall s' l, g_vars s' = g_vars s ++ l -> g_ev s' = g_ev s -> same s').
    { intros s' l E1 E2 w j. unfold evidence. rewrite E1, E2.
      assert (LT : forall a k, g_ev s a = Some k -> a < length (g_vars s)).
      { intros a k Q. destruct (co_ev _ _ _ C a k Q) as (u & Hu & _). eapply var_at_lt; eauto. }
      split; intros (a & A & B); exists a; split; auto.
      - rewrite nth_error_app1 in A; eauto.
      - rewrite nth_error_app1; eauto. }
    assert (IN : forall l v, ~ other_instance s v -> incl l (g_vars s) -> In (vkey v) (map vkey l) -> In v l).
    { intros l v F J Q. apply in_map_iff in Q as (w & Ek & Iw).
      destruct (var_eq_dec w v) as [-> | NE]; auto. exfalso. apply F. exists w. auto. }
    assert (ADD : forall v, ~ other_instance s v -> exists l, vset_add (g_vars s) v = g_vars s ++ l /\ incl l [v] /\ In v (g_vars s ++ l) /\ (l = [] \/ l = [v])).
    { intros v F. destruct (in_dec (fun a b => prod_dec a b) (vkey v) (map vkey (g_vars s))) as [Q|Q].
      - rewrite vset_add_old by auto. exists []. rewrite app_nil_r. splits; auto. intros x []. apply IN; auto. apply incl_refl.
      - rewrite vset_add_new by auto. exists [v]. splits; auto. apply incl_refl. apply in_or_app; simpl; auto. }
    unfold fvars in *.
    assert (CF : forall v, conflict s v <-> other_instance s v) by apply conflict_other.
    assert (NIL : g_vars s = g_vars s ++ []) by (rewrite app_nil_r; auto).
    remember (add_distribution H s (Some f)) as o eqn:Eo. remember (Some f) as d eqn:Ed.
    split; [|split]; [intros RJ|intros RJ|reflexivity]; destruct O; try discriminate; injection Ed as ->; subst; unfold fvars, joined in *;
      try (exists s'; splits; auto; [now apply (SE _ [])]).
    all: try solve [exfalso; apply RJ; unfold rejected; auto 6].
    - exists s. splits; auto. apply (SE _ []); auto.
    - exists (reset_belief s). splits; auto. apply (SE _ []); auto.
    - exists (reset_belief s). splits; auto. apply (SE _ []); auto.
    - destruct (ADD va) as (l & El & _ & _ & D). { rewrite <- CF; auto. }
      exists s'. splits; auto. apply (SE _ l); congruence.
      destruct D as [-> | ->]. left. rewrite app_nil_r in El; congruence. right. exists va, vb. splits; auto. congruence.
    - exists s'. splits; auto. apply (SE _ []); congruence.
    - exfalso. destruct RJ as [F|[F|[(w & F & F')|(x & y & g & F & _)]]].
      + auto.
      + rewrite H1 in F. simpl in F. destruct F; congruence.
      + rewrite H1 in F. destruct F as [-> |[]]. apply H2, CF; auto.
      + rewrite H1 in F. discriminate.
    - exfalso. destruct RJ as [F|[F|[(w & F & F')|(x & y & g & F & Ig & F')]]].
      + auto.
      + rewrite H1 in F. simpl in F. destruct F; congruence.
      + rewrite H1 in F. destruct F as [-> |[-> |[]]]; [apply H2|apply H3]; apply CF; auto.
      + rewrite H1 in F. injection F as -> ->. apply H4. exists g. auto.
    - exfalso. apply RJ. right. right. left. exists v. rewrite H1. split; simpl; auto.
    - exfalso. apply RJ. right. right. left. exists vb. rewrite H1. split; simpl; auto.
    - exfalso. apply RJ. right. right. right. destruct H4 as (g & Ig & J). exists va, vb, g. splits; auto.
    - destruct (ADD v) as (l & El & Il & Iv & D). { rewrite <- CF; auto. }
      exists s'. splits; auto. apply (SE _ l); congruence. exists l. splits. congruence. rewrite H1; auto.
      rewrite H1, H4, El. intros x [-> |[]]; auto.
    - destruct (ADD va) as (l & El & Il & Iv & D). { rewrite <- CF; auto. }
      assert (D2 : exists l2, vset_add (g_vars s ++ l) vb = (g_vars s ++ l) ++ l2 /\ incl l2 [vb] /\ In vb ((g_vars s ++ l) ++ l2)).
      { destruct (in_dec (fun a b => prod_dec a b) (vkey vb) (map vkey (g_vars s ++ l))) as [Q|Q].
        - rewrite vset_add_old by auto. exists []. rewrite app_nil_r. splits; auto. intros x [].
          rewrite map_app in Q. apply in_app_or in Q as [Q|Q]; apply in_or_app.
          + left. apply IN; auto. apply incl_refl.
          + right. destruct D as [-> | ->]; [destruct Q|]. destruct Q as [Q|[]].
            assert (GV : va <> vb -> False). { intros NE. exact (fvars_keys f va vb H1 Q NE). }
            destruct (var_eq_dec va vb) as [-> | NE]; simpl; auto.
        - rewrite vset_add_new by auto. exists [vb]. splits; auto. apply incl_refl. apply in_or_app; simpl; auto. }
      destruct D2 as (l2 & El2 & Il2 & Iv2). assert (EV : g_vars s' = g_vars s ++ (l ++ l2)). { rewrite app_assoc. congruence. }
      exists s'. splits; auto. apply (SE _ (l ++ l2)); auto. exists (l ++ l2). splits; auto.
      + rewrite H1. intros x Hx. apply in_app_or in Hx as [Hx|Hx]; [apply Il in Hx|apply Il2 in Hx]; destruct Hx as [-> |[]]; simpl; auto.
      + rewrite H1, EV, app_assoc. intros x [-> |[-> |[]]]; auto. apply in_or_app; auto.
  Qed.

  (** {1 C47} *)

  (** findVariable returns the first variable inserted with that name and throws
      when there is none; with one variable of that name it is that variable *)
  Theorem C47_find_variable : forall s n,
    (find_variable s n = Throw <-> forall v, In v (g_vars s) -> vname v <> n) /\
    (forall v, find_variable s n = Ok v <->
       exists l r, g_vars s = l ++ v :: r /\ vname v = n /\ forall w, In w l -> vname w <> n).
  Proof.
    intros s n. unfold find_variable. generalize (g_vars s) as vs. induction vs as [|x vs [IH1 IH2]]; simpl.
    - split. split; auto. intros v. split; [discriminate|]. intros ([|] & r & E & _); discriminate.
    - destruct (String.eqb_spec (vname x) n) as [E|E].
      + split. split; [discriminate|]. intros F. exfalso. eapply F; eauto.
        intros v. split. intros [= <-]. exists [], vs. splits; auto.
        intros (l & r & Q & Ev & F). destruct l as [|y l]; injection Q as -> ->; auto. exfalso. apply (F y); simpl; auto.
      + split. rewrite IH1. split. intros F v [<- |I]; auto. intros F v I. apply F; auto.
        intros v. rewrite IH2. split; intros (l & r & Q & Ev & F).
        * exists (x :: l), r. rewrite Q. splits; auto. intros w [<- |I]; auto.
        * destruct l as [|y l]; injection Q as -> ->. congruence. exists l, r. splits; auto. intros w I. apply F. simpl; auto.
  Qed.
  Theorem C47_unique_name_partial : forall s v, In v (g_vars s) ->
    (forall w, In w (g_vars s) -> vname w = vname v -> w = v) -> find_variable s (vname v) = Ok v.
  Proof.
    intros s v I U. destruct (C47_find_variable s (vname v)) as [F1 F2].
    destruct (find_variable s (vname v)) as [w| | | |] eqn:Q.
    - destruct (F2 w) as [(l & r & E & En & _) _]; auto. f_equal. apply U; auto. rewrite E. apply in_or_app. simpl; auto.
    - exfalso. eapply F1; eauto.
    - unfold find_variable in Q. destruct (find _ _); discriminate.
    - unfold find_variable in Q. destruct (find _ _); discriminate.
    - unfold find_variable in Q. destruct (find _ _); discriminate.
  Qed.
End P.

(** {1 What is false of the code} *)

(** removeEvidences stops at the first variable that has no evidence, after
    having dropped the evidences of the previous ones and without rebuilding the
    clusters: the variable A is then neither hidden nor observed *)
Definition limbo : list gop := [OAdd (Some 0); OAdd (Some 6); OSet exA 1; ORemoveSet [exA; exB]].
Theorem C18_partition_refuted : exists (H : nat -> func QcNum) ops s e v,
  (forall f, built (H f)) /\ reach H (fun _ _ => True) ops s /\ env_ok e /\
  In v (g_vars s) /\ ~ In v (hidden_variables e s) /\ ~ In v (observed_variables e s).
Proof.
  exists demoH, limbo, (runs demoH limbo), env_id, exA.
  assert (C : (sane demoH limbo g_empty && existsb (same_instance exA) (g_vars (runs demoH limbo)) &&
     negb (existsb (same_instance exA) (hidden_variables env_id (runs demoH limbo))) &&
     negb (existsb (same_instance exA) (observed_variables env_id (runs demoH limbo))) = true)%bool) by (vm_compute; reflexivity).
  repeat (apply andb_prop in C as [C ?]).
  assert (IN : forall l, existsb (same_instance exA) l = true <-> In exA l).
  { intros l. rewrite existsb_exists. split. intros (x & I & E). apply same_instance_spec in E. subst; auto.
    intros I. exists exA. split; auto. }
  splits; [apply demoH_built|apply runs_reach; auto|apply env_id_ok|apply IN; auto| |];
    rewrite <- IN; apply not_true_iff_false; apply negb_true_iff; auto.
Qed.

(** in that state setEvidence on A is undefined behaviour: the cluster of A is
    looked for among the clusters and the end iterator is used *)
Theorem C20_set_evidence_refuted : exists (H : nat -> func QcNum) ops s e v k,
  (forall f, built (H f)) /\ reach H (fun _ _ => True) ops s /\ env_ok e /\
  In v (g_vars s) /\ k < vsize v /\ set_evidence H e s v k = Undef.
Proof.
  exists demoH, limbo, (runs demoH limbo), env_id, exA, 0.
  assert (C : (sane demoH limbo g_empty && existsb (same_instance exA) (g_vars (runs demoH limbo)) &&
     match set_evidence demoH env_id (runs demoH limbo) exA 0 with Undef => true | _ => false end = true)%bool) by (vm_compute; reflexivity).
  repeat (apply andb_prop in C as [C ?]).
  splits; [apply demoH_built|apply runs_reach; auto|apply env_id_ok| |simpl; lia|].
  - apply existsb_exists in H0 as (x & I & E). apply same_instance_spec in E. subst; auto.
  - destruct (set_evidence demoH env_id (runs demoH limbo) exA 0); try discriminate. reflexivity.
Qed.

(** the insertion of a binary factor whose second variable conflicts with a
    variable of the model leaves the first variable in the model *)
Theorem C21_atomic_refuted : exists (H : nat -> func QcNum) ops s f s' v,
  (forall f, built (H f)) /\ reach H no_failed_removal ops s /\
  add_distribution H s (Some f) = Thr s' /\ In v (g_vars s') /\ ~ In v (g_vars s).
Proof.
  exists demoH, [OAdd (Some 0)], (runs demoH [OAdd (Some 0)]), 4, (after (add_distribution demoH (runs demoH [OAdd (Some 0)]) (Some 4))), exC.
  assert (C : (sane demoH [OAdd (Some 0)] g_empty && threw (add_distribution demoH (runs demoH [OAdd (Some 0)]) (Some 4)) &&
     existsb (same_instance exC) (g_vars (after (add_distribution demoH (runs demoH [OAdd (Some 0)]) (Some 4)))) &&
     negb (existsb (same_instance exC) (g_vars (runs demoH [OAdd (Some 0)]))) = true)%bool) by (vm_compute; reflexivity).
  repeat (apply andb_prop in C as [C ?]).
  assert (IN : forall l, existsb (same_instance exC) l = true <-> In exC l).
  { intros l. rewrite existsb_exists. split. intros (x & I & E). apply same_instance_spec in E. subst; auto.
    intros I. exists exC. split; auto. }
  splits; [apply demoH_built|apply runs_simple; auto; intros A op S; apply (simple_ok demoH A op S)| |apply IN; auto|].
  - destruct (add_distribution demoH _ (Some 4)); try discriminate. reflexivity.
  - rewrite <- IN; apply not_true_iff_false; apply negb_true_iff; auto.
Qed.

(** two variables with the same name and different sizes: the second one cannot
    be found *)
Theorem C47_same_name_refuted : exists (H : nat -> func QcNum) ops s v,
  (forall f, built (H f)) /\ reach H no_failed_removal ops s /\ In v (g_vars s) /\
  find_variable s (vname v) <> Ok v.
Proof.
  exists demoH, [OAdd (Some 0); OAdd (Some 5)], (runs demoH [OAdd (Some 0); OAdd (Some 5)]), exA3.
  assert (C : (sane demoH [OAdd (Some 0); OAdd (Some 5)] g_empty &&
     existsb (same_instance exA3) (g_vars (runs demoH [OAdd (Some 0); OAdd (Some 5)])) &&
     match find_variable (runs demoH [OAdd (Some 0); OAdd (Some 5)]) (vname exA3) with Ok v => negb (same_instance v exA3) | _ => false end = true)%bool)
    by (vm_compute; reflexivity).
  repeat (apply andb_prop in C as [C ?]). splits; [apply demoH_built|apply runs_simple; auto; intros A op S; apply (simple_ok demoH A op S)| |].
  - apply existsb_exists in H0 as (x & I & E). apply same_instance_spec in E. subst; auto.
  - intros F. rewrite F in H. discriminate.
Qed.

(** {1 The hypotheses can be met} *)
Definition story : list gop :=
  [OAdd (Some 0); OAdd (Some 1); OAdd (Some 7); OAdd None; OAdd (Some 2); OSet exB 2; OSet exB 3; OAdd (Some 3); OAdd (Some 8); ORemoveName "B"; OSet exD 1].
Lemma story_reach : reach demoH no_failed_removal story (runs demoH story).
Proof.
  apply runs_reach; [|vm_compute; reflexivity]. intros pre op post E.
  do 11 (destruct pre as [|? pre]; [injection E as <- _; simpl; auto|injection E as _ E]). destruct pre; discriminate.
Qed.
(** five variables, the evidence of D only, five factors, clusters {A,B,C} and {E} *)
Example story_state :
  (length (g_vars (runs demoH story)) =? 5) &&
  match g_ev (runs demoH story) 2 with Some 1 => true | _ => false end &&
  forallb (fun a => negb (is_some (g_ev (runs demoH story) a))) [0; 1; 3; 4] &&
  (length (g_all (runs demoH story)) =? 5) &&
  (length (hidden_variables env_rev (runs demoH story)) =? 4) &&
  list_eqb (map (fun cl => length (cl_nodes cl)) (g_cl (runs demoH story))) [1; 3] = true.
Proof. vm_compute. reflexivity. Qed.
(** an insertion rejected for each reason, and one accepted *)
Example story_rejections :
  forallb (fun f => threw (add_distribution demoH (runs demoH story) (Some f))) [0; 1; 7; 4; 9] &&
  returned (add_distribution demoH (runs demoH story) (Some 6)) = true.
Proof. vm_compute. reflexivity. Qed.
(** both outcomes of setEvidence and removeEvidence *)
Example story_evidences :
  returned (set_evidence demoH env_rev (runs demoH story) exB 2) && threw (set_evidence demoH env_rev (runs demoH story) exB 3) &&
  threw (set_evidence demoH env_rev (runs demoH story) exA3 0) &&
  returned (remove_evidence env_rev (runs demoH story) exD) && threw (remove_evidence env_rev (runs demoH story) exB) = true.
Proof. vm_compute. reflexivity. Qed.

Print Assumptions C18_partition_partial.
Print Assumptions C18_variables_stay.
Print Assumptions C18_partition_refuted.
Print Assumptions C19_clusters_partial.
Print Assumptions C20_evidences_partial.
Print Assumptions C20_set_evidence_partial.
Print Assumptions C20_remove_evidence_partial.
Print Assumptions C20_remove_all_partial.
Print Assumptions C20_set_evidence_refuted.
Print Assumptions C21_insertion_partial.
Print Assumptions C21_atomic_refuted.
Print Assumptions C47_find_variable.
Print Assumptions C47_unique_name_partial.
Print Assumptions C47_same_name_refuted.
