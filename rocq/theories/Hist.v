(** Histories of calls of the API and refinement of the specification *)
From Coq Require Import String List Arith Bool Lia Permutation Relations.
From Verif Require Import Res Num Categoric Func FuncProofs GroupProofs FactorProofs FactorApi Special SpecialProofs
  Graph GraphLemmas Clusters Belief Query GraphInv EvidInv BeliefInv GraphSpec.
Import ListNotations.
Open Scope nat_scope.

Section Hist.
  Context {N : num} (OK : num_ok N).
  Variable H : nat -> func N.
  Hypothesis HG : solids H.
  Notation gst := (gst (N:=N)).
  Implicit Types s : gst.
  Notation core := (core H).

  (** answers of the calls *)
  Inductive answer := AUnit | ADist (l : list N) | AVal (k : nat) | AVals (l : list nat) | AFac (f : func N).

  Definition omap {A} (f : A -> answer) (o : out gst A) : out gst answer := do (a, s) <- o ;; Ret (f a) s.

  (** the call of the API that corresponds to an operation *)
  Definition call (e : env) (op : gop) (s : gst) : out gst answer :=
    match op with
    | OAdd d => omap (fun _ => AUnit) (add_distribution H s d)
    | OSet v k => omap (fun _ => AUnit) (set_evidence H e s v k)
    | OSetName n k => omap (fun _ => AUnit) (set_evidence_name H e s n k)
    | ORemove v => omap (fun _ => AUnit) (remove_evidence e s v)
    | ORemoveName n => omap (fun _ => AUnit) (remove_evidence_name e s n)
    | ORemoveSet vs => omap (fun _ => AUnit) (remove_evidences e s vs)
    | ORemoveNames ns => omap (fun _ => AUnit) (remove_evidences_names e s ns)
    | ORemoveAll => omap (fun _ => AUnit) (remove_all_evidences e s)
    | OMarginal v n => omap ADist (get_marginal H e v n s)
    | OMarginalName v n => omap ADist (get_marginal_name H e v n s)
    | OMap v n => omap AVal (get_map H e v n s)
    | OMapName v n => omap AVal (get_map_name H e v n s)
    | OHiddenMap n => omap AVals (get_hidden_map H e n s)
    | OJoint g n => omap AFac (get_joint H e g n s)
    | OJointNames ns n => omap AFac (get_joint_names H e ns n s)
    | OPropagate k n => omap (fun _ => AUnit) (scoped_pool n (propagate H e (if k then SUM else MAP)) s)
    | OIters n => Ret AUnit (set_iters s n)
    end.

  (** the states reached by a sequence of calls, each one with its own iteration
      orders, going on after the exceptions; undefined behaviour has no
      successor. [G] restricts the calls. *)
  Inductive reach (G : spec -> gop -> Prop) : list gop -> gst -> Prop :=
  | R_start : reach G [] g_empty
  | R_ret ops s e op a s' : reach G ops s -> G (sp_run (fvars H) ops) op -> env_ok e ->
      call e op s = Ret a s' -> reach G (ops ++ [op]) s'
  | R_thr ops s e op s' : reach G ops s -> G (sp_run (fvars H) ops) op -> env_ok e ->
      call e op s = Thr s' -> reach G (ops ++ [op]) s'.

  (** the state of the model seen by the user *)
  Record abs s (A : spec) : Prop := {
    ab_vars : g_vars s = sp_vars A;
    ab_ev : forall a v, var_at s a v -> g_ev s a = sp_ev A (vkey v);
    ab_none : forall k, ~ In k (map vkey (g_vars s)) -> sp_ev A k = None;
    ab_all : g_all s = sp_facs A
  }.

  (** {1 The tests of the specification} *)
  Lemma same_key_spec x y : same_key x y = true <-> vkey x = vkey y.
  Proof.
    unfold same_key, vkey. rewrite andb_true_iff, String.eqb_eq, Nat.eqb_eq. split.
    intros [-> ->]; auto. intros [= -> ->]; auto.
  Qed.
  Lemma same_instance_spec x y : same_instance x y = true <-> x = y.
  Proof.
    unfold same_instance. rewrite andb_true_iff, same_key_spec, Nat.eqb_eq. unfold vkey. destruct x, y; simpl. split.
    intros [[= -> ->] ->]; auto. intros [= -> -> ->]; auto.
  Qed.
  Lemma same_instance_false x y : same_instance x y = false <-> x <> y.
  Proof. rewrite <- same_instance_spec. destruct (same_instance x y); split; congruence. Qed.
  Lemma existsb_key v l : existsb (same_key v) l = true <-> In (vkey v) (map vkey l).
  Proof.
    rewrite existsb_exists, in_map_iff. split; intros (x & A & B).
    - apply same_key_spec in B. eauto.
    - exists x. split; auto. apply same_key_spec; auto.
  Qed.
  Lemma vset_mem_key l v : vset_mem l v = existsb (same_key v) l.
  Proof. apply eq_true_iff_eq. rewrite existsb_key, vset_mem_spec. tauto. Qed.

  Lemma find_node_known s v : is_some (find_node s v) = existsb (same_key v) (g_vars s).
  Proof.
    destruct (existsb (same_key v) (g_vars s)) eqn:E.
    - apply existsb_key in E. destruct (find_node s v) eqn:F; auto. apply find_node_none in F. contradiction.
    - destruct (find_node s v) eqn:F; auto. exfalso. assert (K : find_node s v = None).
      { apply find_node_none. rewrite <- existsb_key. congruence. } congruence.
  Qed.
  Lemma sp_known_spec s A v : abs s A -> sp_known A v = is_some (find_node s v).
  Proof. intros AB. rewrite find_node_known. unfold sp_known. rewrite (ab_vars _ _ AB). auto. Qed.

  Lemma sp_conflict_spec s A v : abs s A -> sp_conflict A v = true <-> conflict s v.
  Proof.
    intros AB. unfold sp_conflict, conflict. rewrite existsb_exists, (ab_vars _ _ AB). split.
    - intros (w & I & E). apply andb_true_iff in E as [E1 E2]. apply same_key_spec in E1.
      apply negb_true_iff, same_instance_false in E2. exists w. splits; auto.
    - intros (w & I & E1 & E2). exists w. split; auto. apply andb_true_iff. split. apply same_key_spec; auto.
      apply negb_true_iff, same_instance_false. auto.
  Qed.
  Lemma sp_conflict_false s A v : abs s A -> sp_conflict A v = false <-> ~ conflict s v.
  Proof. intros AB. rewrite <- (sp_conflict_spec s A v AB). destruct (sp_conflict A v); split; congruence. Qed.

  Lemma sp_joined_spec s A x y : abs s A -> sp_joined (fvars H) A x y = true <-> joined H (g_all s) x y.
  Proof.
    intros AB. unfold sp_joined, joined. rewrite existsb_exists, (ab_all _ _ AB). split; intros (g & I & E); exists g; split; auto.
    - destruct (fvars H g) as [|a [|b [|]]]; try discriminate. apply orb_true_iff in E.
      rewrite !andb_true_iff, !same_instance_spec in E. destruct E as [[-> ->]|[-> ->]]; auto.
    - destruct E as [-> | ->]; apply orb_true_iff; rewrite !andb_true_iff, !same_instance_spec; auto.
  Qed.

  Lemma sp_observed_spec s A v : NoDup (map vkey (g_vars s)) -> abs s A ->
    sp_observed A v = true <-> exists a k, find_node s v = Some a /\ g_ev s a = Some k.
  Proof.
    intros ND AB. unfold sp_observed. rewrite (sp_known_spec s A v AB). destruct (find_node s v) as [a|] eqn:F; simpl.
    - apply find_node_spec in F as (w & Hw & Ek); auto. pose proof (ab_ev _ _ AB a w Hw) as Q. rewrite Ek in Q.
      unfold vkey in Q. rewrite <- Q. destruct (g_ev s a) as [k|] eqn:Ev; split; auto.
      + intros _. exists a, k. auto.
      + discriminate.
      + intros (b & k & [= <-] & Q2). congruence.
    - split. discriminate. intros (a & k & Q & _). discriminate.
  Qed.

  Lemma sp_named_spec s A n : abs s A -> find_variable s n = match sp_named A n with Some v => Ok v | None => Throw end.
  Proof. intros AB. unfold find_variable, sp_named. rewrite (ab_vars _ _ AB). auto. Qed.

  Lemma upd_ev_eq m k x : upd_ev m k x k = x.
  Proof. unfold upd_ev. rewrite String.eqb_refl, Nat.eqb_refl. auto. Qed.
  Lemma upd_ev_ne m k x j : j <> k -> upd_ev m k x j = m j.
  Proof.
    intros Q. unfold upd_ev. destruct (String.eqb_spec (fst j) (fst k)), (Nat.eqb_spec (snd j) (snd k)); simpl; auto.
    exfalso. apply Q. destruct j, k; simpl in *; congruence.
  Qed.

  (** {1 Change of the abstract state} *)
  Lemma abs_empty : abs g_empty spec_empty.
  Proof. constructor; auto. Qed.

  Lemma abs_same s s' A : abs s A -> g_vars s' = g_vars s -> g_ev s' = g_ev s -> g_all s' = g_all s -> abs s' A.
  Proof.
    intros [A1 A2 A3 A4] E1 E2 E3. constructor.
    - congruence.
    - intros a v. unfold var_at. rewrite E1, E2. apply A2.
    - rewrite E1. auto.
    - congruence.
  Qed.

  Lemma abs_insert s s' A v : abs s A -> (forall a k, g_ev s a = Some k -> a < gsize s) -> g_vars s' = vset_add (g_vars s) v -> g_ev s' = g_ev s -> g_all s' = g_all s ->
    abs s' (sp_insert A v).
  Proof.
    intros AB C E1 E2 E3. unfold sp_insert, sp_known. rewrite <- (ab_vars _ _ AB), <- vset_mem_key. unfold vset_add in E1.
    destruct (vset_mem (g_vars s) v) eqn:M. { eapply abs_same; eauto. }
    constructor; simpl.
    - rewrite E1. reflexivity.
    - intros a w. unfold var_at. rewrite E1, E2. intros Q. apply nth_error_snoc in Q as [Q|[-> ->]]; [apply AB; auto|].
      rewrite (ab_none _ _ AB).
      + destruct (g_ev s (length (g_vars s))) eqn:Ev; auto. apply C in Ev. unfold gsize in Ev. lia.
      + rewrite <- vset_mem_spec. congruence.
    - intros k Nk. apply AB. intros I. apply Nk. rewrite E1, map_app, in_app_iff. auto.
    - rewrite E3. apply AB.
  Qed.

  Lemma abs_push s s' A f : abs s A -> g_vars s' = g_vars s -> g_ev s' = g_ev s -> g_all s' = g_all s ++ [f] -> abs s' (sp_push A f).
  Proof.
    intros [A1 A2 A3 A4] E1 E2 E3. constructor; simpl.
    - congruence.
    - intros a v. unfold var_at. rewrite E1, E2. apply A2.
    - rewrite E1. auto.
    - congruence.
  Qed.

  Lemma abs_set s s' A v a x : NoDup (map vkey (g_vars s)) -> abs s A -> find_node s v = Some a ->
    g_vars s' = g_vars s -> (forall b, g_ev s' b = fupd (g_ev s) a x b) -> g_all s' = g_all s -> abs s' (sp_set A v x).
  Proof.
    intros ND AB F E1 E2 E3. apply find_node_spec in F as (w & Hw & Ek); auto. constructor; simpl.
    - rewrite E1. apply AB.
    - intros b u. unfold var_at. rewrite E1, E2. intros Hu. destruct (Nat.eq_dec b a) as [->|Nb].
      + assert (u = w) by (unfold var_at in Hw; congruence). subst u. rewrite fupd_eq, Ek. unfold vkey. rewrite upd_ev_eq. auto.
      + rewrite fupd_ne, upd_ev_ne by auto || (intros Q; apply Nb; change (vname v, vsize v) with (vkey v) in Q; rewrite <- Ek in Q;
          eapply (var_at_inj s b a u w); eauto). apply AB; auto.
    - intros k. rewrite E1. intros Nk. rewrite upd_ev_ne. apply AB; auto. intros ->. apply Nk. change (vname v, vsize v) with (vkey v).
      rewrite <- Ek. apply in_map. eapply nth_error_In; eauto.
    - rewrite E3. apply AB.
  Qed.

  Lemma keeps_abs s s' A : keeps H s s' -> abs s A -> abs s' A.
  Proof. intros K AB. eapply abs_same; eauto; apply K. Qed.
  Lemma keeps_inv s s' : keeps H s s' -> inv H s -> inv H s'.
  Proof. intros K [C CS]. split. rewrite (kp_all _ _ _ K). eapply keeps_core; eauto. eapply keeps_clus; eauto. Qed.

  (** {1 Refinement of each call} *)
  Definition does {A} s (o : out gst A) (x : A) (r : bool * spec) (P : gst -> Prop) : Prop :=
    exists s', o = (if fst r then Thr s' else Ret x s') /\ inv H s' /\ abs s' (snd r) /\ (clean s -> P s').

  Lemma add_does s A f : inv H s -> abs s A -> does s (add_distribution H s (Some f)) tt (sp_add (fvars H) A f) (clean).
  Proof.
    intros I AB. pose proof (add_distribution_ok H HG s (Some f) I) as O. pose proof I as [C CS].
    assert (EX : existsb (Nat.eqb f) (sp_facs A) = mem f (g_all s)) by (rewrite (ab_all _ _ AB); auto).
    assert (RB : inv H (reset_belief s)).
    { split. eapply core_same; [| | |exact C]; auto. eapply clus_same; [| | | |exact CS]; auto. }
    assert (CLB : clean s -> clean (reset_belief s)) by (intros X; exact X).
    assert (LT : forall a k, g_ev s a = Some k -> a < gsize s) by (intros; eapply ev_lt; eauto).
    unfold sp_add, does. rewrite EX.
    revert O. generalize (add_distribution H s (Some f)) as o. intros o O. inversion O; subst.
    - apply mem_In in H1. rewrite H1. exists s. auto.
    - apply mem_false in H1. rewrite H1. exists (reset_belief s).
      assert (AB' : abs (reset_belief s) A) by (eapply abs_same; eauto).
      destruct (fvars H f) as [|? [|? [|]]]; try (simpl in *; congruence); splits; auto.
    - apply mem_false in H1. rewrite H1. exists (reset_belief s).
      assert (AB' : abs (reset_belief s) A) by (eapply abs_same; eauto).
      rewrite H2. apply (sp_conflict_spec s A v AB) in H4. destruct r as [|? [|]]; rewrite ?H4; simpl in *; splits; auto.
    - apply mem_false in H1. rewrite H1, H2. rewrite (proj2 (sp_conflict_false s A va AB) H3), (proj2 (sp_conflict_spec s A vb AB) H4).
      exists s'. splits; auto. eapply abs_insert; eauto.
    - apply mem_false in H1. rewrite H1, H2. rewrite (proj2 (sp_conflict_false s A va AB) H3), (proj2 (sp_conflict_false s A vb AB) H4).
      rewrite (proj2 (sp_joined_spec s A va vb AB) H5). exists s'. splits; auto. eapply abs_same; eauto.
    - apply mem_false in H1. rewrite H1, H2. rewrite (proj2 (sp_conflict_false s A v AB) H3).
      exists s'. splits; auto. simpl. set (s1 := set_all s' (g_all s)).
      apply (abs_push s1); auto. eapply (abs_insert s); eauto.
    - apply mem_false in H1. rewrite H1, H2. rewrite (proj2 (sp_conflict_false s A va AB) H3), (proj2 (sp_conflict_false s A vb AB) H4).
      assert (J : sp_joined (fvars H) A va vb = false).
      { destruct (sp_joined (fvars H) A va vb) eqn:J; auto. apply (sp_joined_spec s) in J; auto. contradiction. }
      rewrite J. exists s'. splits; auto. simpl.
      set (s2 := set_all s' (g_all s)). apply (abs_push s2); auto.
      set (s1 := mkG (vset_add (g_vars s) va) (g_node s) (g_next s) (g_cl s) (g_ev s) (g_all s) (g_last s) (g_iters s) (g_pool s)).
      apply (abs_insert s1); auto. eapply (abs_insert s); eauto.
      intros a k Q. apply LT in Q. unfold gsize in *. simpl. unfold vset_add. destruct (vset_mem _ _); auto. rewrite app_length. lia.
  Qed.

  Lemma set_does s A e v k : inv H s -> abs s A -> env_ok e ->
    does s (set_evidence H e s v k) tt (sp_set_ev A v k) (clean).
  Proof.
    intros [C CS] AB E. unfold sp_set_ev, does. rewrite (sp_known_spec s A v AB).
    destruct (set_evidence_ok H HG s (g_all s) e v k C CS E) as [[Q ->]|(L & a & s' & F & -> & C' & CS' & V' & E' & A' & _ & CL')].
    - assert (Z : (k <? vsize v) && is_some (find_node s v) = false).
      { destruct Q as [Q|Q]. apply Nat.ltb_ge in Q. rewrite Q. auto. rewrite Q. apply andb_false_r. }
      rewrite Z. exists s. splits; auto. split; auto.
    - rewrite F. apply Nat.ltb_lt in L. rewrite L. simpl. exists s'. splits; auto.
      + split; auto. rewrite A'. auto.
      + eapply abs_set; eauto. apply C. intros b. rewrite E'. auto.
  Qed.

  Lemma removed_abs s s' fs ds vs A : core s fs -> abs s A -> removed H s s' fs ds ->
    Forall2 (fun v a => find_node s v = Some a) vs ds -> abs s' (fold_left (fun A v => sp_set A v None) vs A).
  Proof.
    intros C AB R F2. pose proof (rm_vars _ _ _ _ _ R) as EV. pose proof (rm_all _ _ _ _ _ R) as EA. pose proof (rm_ev _ _ _ _ _ R) as EE.
    clear R.
    assert (G : forall vs ds A s0, Forall2 (fun v a => find_node s0 v = Some a) vs ds -> NoDup (map vkey (g_vars s0)) -> abs s0 A ->
      forall s', g_vars s' = g_vars s0 -> g_all s' = g_all s0 -> (forall x, g_ev s' x = if mem x ds then None else g_ev s0 x) ->
      abs s' (fold_left (fun A v => sp_set A v None) vs A)).
    { clear. induction vs as [|v vs IH]; intros ds A s0 F2 ND AB s' EV EA EE; inversion F2 as [|? a ? ds' Fa F2']; subst; simpl.
      - constructor.
        + rewrite EV. apply AB.
        + intros b w. unfold var_at. rewrite EV, EE. apply AB.
        + rewrite EV. apply AB.
        + rewrite EA. apply AB.
      - set (s1 := set_ev s0 (fupd (g_ev s0) a None)). apply (IH ds' _ s1); auto.
        + eapply abs_set; eauto.
        + intros x. rewrite EE. unfold mem. simpl. unfold fupd. destruct (x =? a); simpl; auto. destruct (existsb _ ds'); auto. }
    eapply G; eauto. apply C.
  Qed.

  (** the loop of [removeEvidences] predicted by the specification *)
  Lemma removes_ok vs : forall s A ds, NoDup (map vkey (g_vars s)) -> abs s A ->
    Forall2 (fun v a => find_node s v = Some a) vs ds -> NoDup ds -> (forall a, In a ds -> g_ev s a <> None) ->
    sp_removes A vs = (false, fold_left (fun A v => sp_set A v None) vs A).
  Proof.
    induction vs as [|v vs IH]; intros s A ds ND AB F2 NDd OB; simpl; auto. inversion F2 as [|? a ? ds' Fa F2']; subst.
    inversion NDd as [|? ? Na NDd']; subst.
    assert (O : sp_observed A v = true).
    { apply (sp_observed_spec s); auto. destruct (g_ev s a) as [k|] eqn:Q. eauto. exfalso. eapply OB; simpl; eauto. }
    rewrite O. apply (IH (set_ev s (fupd (g_ev s) a None)) _ ds'); auto.
    - eapply abs_set; eauto.
    - intros x I. simpl. rewrite fupd_ne. apply OB; simpl; auto. intros ->; auto.
  Qed.
  Lemma removes_fail vs1 v vs2 : forall s A ds, NoDup (map vkey (g_vars s)) -> abs s A ->
    Forall2 (fun v a => find_node s v = Some a) vs1 ds -> NoDup ds -> (forall a, In a ds -> g_ev s a <> None) ->
    (forall a, find_node s v = Some a -> In a ds \/ g_ev s a = None) ->
    sp_removes A (vs1 ++ v :: vs2) = (true, fold_left (fun A v => sp_set A v None) vs1 A).
  Proof.
    induction vs1 as [|w vs1 IH]; intros s A ds ND AB F2 NDd OB NF; simpl; inversion F2 as [|? a ? ds' Fa F2']; subst.
    - destruct (sp_observed A v) eqn:O; auto. exfalso. apply (sp_observed_spec s) in O as (a & k & Fa & Ea); auto.
      destruct (NF a Fa) as [[]|Q]. congruence.
    - inversion NDd as [|? ? Na NDd']; subst.
      assert (O : sp_observed A w = true).
      { apply (sp_observed_spec s); auto. destruct (g_ev s a) as [k|] eqn:Q. eauto. exfalso. eapply OB; simpl; eauto. }
      rewrite O. apply (IH (set_ev s (fupd (g_ev s) a None)) _ ds'); auto.
      + eapply abs_set; eauto.
      + intros x I. simpl. rewrite fupd_ne. apply OB; simpl; auto. intros ->; auto.
      + intros b Fb. simpl. destruct (NF b Fb) as [[->|I]|Q]; auto. right. apply fupd_eq.
        right. unfold fupd. destruct (b =? a); auto.
  Qed.

  (** the removal of evidences of variables that are separated from the
      remaining evidences *)
  Lemma separated_clean s A fs ds vs s' : fs = g_all s -> core s fs -> abs s A -> removed H s s' fs ds ->
    Forall2 (fun v a => find_node s v = Some a) vs ds -> separated (fvars H) A vs -> clean s -> clean s'.
  Proof.
    intros -> C AB R F2 SP CL. eapply removed_clean; eauto. intros a b Ia Q.
    destruct (dis s a b) as [c|] eqn:Qc; [|congruence].
    destruct (co_dis _ _ _ C a b c Qc) as (_ & Ig & va & vb & Ha & Hb & Ef).
    destruct (g_ev s b) as [k|] eqn:Eb; auto. right.
    assert (KA : existsb (same_key va) vs = true).
    { apply existsb_key. clear - F2 Ia Ha C. induction F2 as [|v x vs ds Fx F2 IH]; [destruct Ia|]. destruct Ia as [->|Ia].
      - left. apply find_node_spec in Fx as (w & Hw & Ek); [|apply C]. rewrite <- Ek. f_equal. eapply var_at_fun; eauto.
      - right; auto. }
    assert (KB : existsb (same_key vb) vs = true).
    { eapply (SP (c_fac c) va vb); eauto. rewrite <- (ab_all _ _ AB); auto. apply (sp_observed_spec s); auto. apply C.
      exists b, k. split; auto. apply find_node_spec; [apply C|]. eauto. }
    apply existsb_key in KB. clear - F2 KB Hb C. induction F2 as [|v x vs ds Fx F2 IH]; [destruct KB|]. destruct KB as [KB|KB]; [left|right; auto].
    apply find_node_spec in Fx as (w & Hw & Ek); [|apply C]. destruct (var_at_inj s x b w vb); auto. apply C. congruence.
  Qed.

  Lemma clean_reset s e : clean s -> clean (reset_state e s).
  Proof. intros CL. exact CL. Qed.
  Lemma abs_reset s e A : abs s A -> abs (reset_state e s) A.
  Proof. intros AB. eapply abs_same; eauto. Qed.

  Lemma remove_does s A e v : inv H s -> abs s A -> env_ok e ->
    does s (remove_evidence e s v) tt (sp_remove A v) (fun s' => separated (fvars H) A [v] -> clean s').
  Proof.
    intros [C CS] AB E. unfold sp_remove, does.
    destruct (remove_evidence_ok H s (g_all s) e v C E) as [[Q ->]|(a & k & s1 & s' & F & Ea & -> & R & -> & C' & CS')].
    - assert (O : sp_observed A v = false).
      { destruct (sp_observed A v) eqn:O; auto. apply (sp_observed_spec s) in O as (a & k & Fa & Ea); auto; [|apply C].
        destruct Q as [Q|(b & Q1 & Q2)]; congruence. }
      rewrite O. exists s. splits; auto. split; auto.
    - assert (O : sp_observed A v = true) by (apply (sp_observed_spec s); eauto; apply C).
      rewrite O. exists (reset_state e s1). splits; auto.
      + split; auto. simpl. rewrite (rm_all _ _ _ _ _ R). auto.
      + apply abs_reset. simpl. apply (removed_abs s s1 (g_all s) [a] [v] A); auto.
      + intros CL SP. apply clean_reset. eapply separated_clean; eauto.
  Qed.

  Lemma removes_does s A e vs : inv H s -> abs s A -> env_ok e -> fst (sp_removes A vs) = false ->
    does s (remove_evidences e s vs) tt (sp_removes A vs) (fun s' => separated (fvars H) A vs -> clean s').
  Proof.
    intros [C CS] AB E G. unfold does. destruct vs as [|v0 vs0]. { exists s. splits; auto. split; auto. }
    remember (v0 :: vs0) as vs. assert (ER : remove_evidences e s vs = do (_, s) <- ofold (remove_evidence_ e) vs s ;; Ret tt (reset_state e s)) by (subst; auto).
    rewrite ER. clear ER Heqvs v0 vs0.
    destruct (ofold_remove H (g_all s) e vs E s C) as [(ds & s1 & -> & R & F2)|(vs1 & v & vs2 & ds & s1 & -> & Eo & R & F2 & _ & NF)].
    - cbn [obind]. rewrite (removes_ok vs s A ds); auto; try apply R; try apply C.
      destruct (reset_state_ok H s1 (g_all s) e (rm_core _ _ _ _ _ R) E) as [C' CS'].
      exists (reset_state e s1). splits; auto.
      + split; auto. simpl. rewrite (rm_all _ _ _ _ _ R). auto.
      + apply abs_reset. simpl. apply (removed_abs s s1 (g_all s) ds vs A); auto.
      + intros CL SP. apply clean_reset. eapply separated_clean; eauto.
    - exfalso. rewrite (removes_fail vs1 v vs2 s A ds) in G; auto; try apply R; try apply C. discriminate.
  Qed.

  Lemma remove_all_does s A e : inv H s -> abs s A -> env_ok e ->
    does s (remove_all_evidences e s) tt (false, mkSpec (sp_vars A) (fun _ => None) (sp_facs A)) clean.
  Proof.
    intros [C CS] AB E. destruct (remove_all_ok H s (g_all s) e C E) as (s' & -> & C' & CS' & CL & V & A' & EV & _).
    exists s'. splits; auto.
    - split; auto. rewrite A'. auto.
    - constructor; simpl; auto. rewrite V; apply AB. rewrite A'; apply AB.
  Qed.

  Lemma sp_names_spec s A ns : abs s A -> rmap (find_variable s) ns = match sp_names A ns with Some l => Ok l | None => Throw end.
  Proof.
    intros AB. induction ns as [|n ns IH]; simpl; auto. rewrite (sp_named_spec s A n AB), IH.
    destruct (sp_named A n); simpl; auto. destruct (sp_names A ns); auto.
  Qed.
  Lemma sp_dedup_spec vs : sp_dedup vs = fold_left vset_add vs [].
  Proof.
    assert (G : forall acc, fold_left (fun acc v => if existsb (same_key v) acc then acc else acc ++ [v]) vs acc = fold_left vset_add vs acc).
    { induction vs as [|v vs IH]; simpl; intros acc; auto. rewrite IH. f_equal. unfold vset_add. rewrite vset_mem_key. auto. }
    apply G.
  Qed.
  Lemma dedup_keys vs v : existsb (same_key v) (sp_dedup vs) = existsb (same_key v) vs.
  Proof.
    apply eq_true_iff_eq. rewrite !existsb_key. unfold sp_dedup.
    assert (G : forall acc, In (vkey v) (map vkey (fold_left (fun acc v => if existsb (same_key v) acc then acc else acc ++ [v]) vs acc)) <->
      In (vkey v) (map vkey acc) \/ In (vkey v) (map vkey vs)).
    { induction vs as [|w vs IH]; simpl; intros acc. tauto. rewrite IH. destruct (existsb (same_key w) acc) eqn:M.
      - apply existsb_key in M. split; [tauto|]. intros [?|[<-|?]]; auto.
      - rewrite map_app, in_app_iff. simpl. tauto. }
    rewrite G. simpl. tauto.
  Qed.

  (** {1 Any call} *)
  Theorem call_refines s A e op : inv H s -> abs s A -> env_ok e -> no_failed_removal A op ->
    match sp_step (fvars H) A op with
    | Some r => exists s', call e op s = (if fst r then Thr s' else Ret AUnit s') /\ inv H s' /\ abs s' (snd r) /\
                  (separated_removal (fvars H) A op -> clean s -> clean s')
    | None => okeeps H s (call e op s)
    end.
  Proof.
    intros I AB E G. pose proof I as [C CS].
    assert (D : forall (o : out gst unit) r (P : gst -> Prop), does s o tt r P -> (forall s', P s' -> separated_removal (fvars H) A op -> clean s') ->
      exists s', omap (fun _ => AUnit) o = (if fst r then Thr s' else Ret AUnit s') /\ inv H s' /\ abs s' (snd r) /\
                  (separated_removal (fvars H) A op -> clean s -> clean s')).
    { intros o r P (s' & -> & I' & AB' & CL') HP. exists s'. splits; auto. destruct (fst r); auto. }
    assert (K : forall B (f : B -> answer) (o : out gst B), okeeps H s o -> okeeps H s (omap f o)).
    { intros B f o K. unfold omap. apply okeeps_bind; auto. intros b s' _ _. apply keeps_refl. }
    destruct op; simpl in G |- *; try (apply K).
    - destruct f as [f|].
      + eapply D. apply add_does; auto. auto.
      + exists s. splits; auto.
    - eapply D. apply set_does; auto. auto.
    - unfold set_evidence_name. rewrite (sp_named_spec s A n AB). destruct (sp_named A n) as [v|]; cbn [lift obind].
      + eapply D. apply set_does; auto. auto.
      + exists s. splits; auto.
    - eapply D. apply remove_does; auto. auto.
    - unfold remove_evidence_name. rewrite (sp_named_spec s A n AB). destruct (sp_named A n) as [v|] eqn:Q; cbn [lift obind].
      + simpl in D. rewrite Q in D. eapply D. apply remove_does; auto. auto.
      + exists s. splits; auto.
    - eapply D. apply removes_does; auto. auto.
    - unfold remove_evidences_names. rewrite (sp_names_spec s A ns AB). destruct (sp_names A ns) as [vs|] eqn:Q; cbn [lift obind].
      + rewrite <- sp_dedup_spec. simpl in D. rewrite Q in D. eapply D. apply removes_does; auto. intros s' F SP. apply F.
        intros g x y Ig Ef Kx Oy. rewrite dedup_keys in Kx |- *. eapply SP; eauto.
      + exists s. splits; auto.
    - apply (D _ (false, mkSpec (sp_vars A) (fun _ => None) (sp_facs A)) clean). apply remove_all_does; auto. auto.
    - eapply get_marginal_keeps; eauto.
    - eapply get_marginal_name_keeps; eauto.
    - eapply get_map_keeps; eauto.
    - eapply get_map_name_keeps; eauto.
    - eapply get_hidden_map_keeps; eauto.
    - eapply get_joint_keeps; eauto.
    - eapply get_joint_names_keeps; eauto.
    - apply scoped_keeps. intros s' K'. eapply propagate_keeps; eauto. eapply keeps_core; eauto. eapply keeps_clus; eauto.
    - exists (set_iters s n). splits; auto.
      + split. eapply core_same; [| | |exact C]; auto. eapply clus_same; [| | | |exact CS]; auto.
      + eapply abs_same; eauto.
  Qed.

  (** {1 Histories} *)
  Lemma inv_empty : inv H g_empty.
  Proof.
    assert (A0 : forall x y, act (g_empty (N:=N)) x y = None) by reflexivity.
    split; constructor; simpl; try constructor; try (intros; discriminate); try (intros; contradiction); auto.
  Qed.

  Lemma sp_run_snoc ops op : sp_run (fvars H) (ops ++ [op]) = sp_next (fvars H) (sp_run (fvars H) ops) op.
  Proof. unfold sp_run. rewrite fold_left_app. auto. Qed.

  Theorem reach_abs (G : spec -> gop -> Prop) ops s : (forall A op, G A op -> no_failed_removal A op) ->
    reach G ops s -> inv H s /\ abs s (sp_run (fvars H) ops).
  Proof.
    intros HGu R. induction R as [|ops s e op a s' R [I AB] Gop E Q|ops s e op s' R [I AB] Gop E Q].
    - split. apply inv_empty. apply abs_empty.
    - pose proof (call_refines s _ e op I AB E (HGu _ _ Gop)) as CR. rewrite sp_run_snoc. unfold sp_next.
      destruct (sp_step (fvars H) _ op) as [[t A']|].
      + destruct CR as (s2 & Q2 & I2 & AB2 & _). rewrite Q in Q2. destruct (fst (t, A')); [discriminate|]. injection Q2 as _ <-. auto.
      + rewrite Q in CR. simpl in CR. split. eapply keeps_inv; eauto. eapply keeps_abs; eauto.
    - pose proof (call_refines s _ e op I AB E (HGu _ _ Gop)) as CR. rewrite sp_run_snoc. unfold sp_next.
      destruct (sp_step (fvars H) _ op) as [[t A']|].
      + destruct CR as (s2 & Q2 & I2 & AB2 & _). rewrite Q in Q2. destruct (fst (t, A')); [|discriminate]. injection Q2 as <-. auto.
      + rewrite Q in CR. simpl in CR. split. eapply keeps_inv; eauto. eapply keeps_abs; eauto.
  Qed.

  Theorem reach_clean (G : spec -> gop -> Prop) ops s :
    (forall A op, G A op -> no_failed_removal A op /\ separated_removal (fvars H) A op) -> reach G ops s -> clean s.
  Proof.
    intros HGu R. assert (HGw : forall A op, G A op -> no_failed_removal A op) by (intros; eapply HGu; eauto).
    induction R as [|ops s e op a s' R CL Gop E Q|ops s e op s' R CL Gop E Q].
    - intros x y [c Q]. discriminate.
    - destruct (reach_abs G ops s HGw R) as [I AB]. pose proof (call_refines s _ e op I AB E (HGw _ _ Gop)) as CR.
      destruct (sp_step (fvars H) _ op) as [[t A']|].
      + destruct CR as (s2 & Q2 & _ & _ & CL2). rewrite Q in Q2. destruct (fst (t, A')); [discriminate|]. injection Q2 as _ <-.
        apply CL2; auto. eapply HGu; eauto.
      + rewrite Q in CR. simpl in CR. eapply keeps_clean; eauto.
    - destruct (reach_abs G ops s HGw R) as [I AB]. pose proof (call_refines s _ e op I AB E (HGw _ _ Gop)) as CR.
      destruct (sp_step (fvars H) _ op) as [[t A']|].
      + destruct CR as (s2 & Q2 & _ & _ & CL2). rewrite Q in Q2. destruct (fst (t, A')); [|discriminate]. injection Q2 as <-.
        apply CL2; auto. eapply HGu; eauto.
      + rewrite Q in CR. simpl in CR. eapply keeps_clean; eauto.
  Qed.
End Hist.
