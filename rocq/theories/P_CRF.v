(** Properties C40, C41, C50: conditional random fields *)
From Coq Require Import String List Arith Bool Lia Permutation QArith Qcanon.
From Verif Require Import Res Num Categoric Combs Func FuncProofs GroupProofs FactorProofs FactorApi Special SpecialProofs
  Graph GraphLemmas Clusters Belief Query Gibbs GraphInv EvidInv BeliefInv BPRun GraphSpec Hist P_Categoric P_Graph Train TrainHist Coherent P_Train CRF CRFHist.
Import ListNotations.
Open Scope nat_scope.

Section C40.
  Context {N : num} (OK : num_ok N).
  Notation gst := (gst (N:=N)).
  Notation rst := (rst (N:=N)).
  Notation crf := (crf (N:=N)).
  Implicit Types c : crf.
  Implicit Types s : rst.
  Implicit Types e : env.

  (** [observed_variables e g]: the observed variables in the order of
      [getEvidences()]; [observed_order e g]: in the order of
      [getObservedVariables()] *)
  Definition graph_of c : gst := r_g (c_r c).

  Lemma observed_nth e (g : gst) H : shape H g -> env_ok e -> Forall2 (fun a v => var_at g a v) (evidence_order e g) (observed_variables e g).
  Proof.
    intros Q E. assert (LT : forall a, In a (evidence_order e g) -> a < gsize g).
    { intros a J. unfold evidence_order in J. apply ord_In, keys_In in J as [L _]; auto. }
    pose proof (evidence_order_nd e g E) as ND. destruct (evidence_order e g) as [|a0 l] eqn:EO.
    { unfold observed_variables. unfold evidence_order in EO. rewrite EO. constructor. }
    destruct (var_at_ex g a0) as [d _]. { apply LT; left; auto. }
    unfold observed_variables. unfold evidence_order in EO. rewrite EO.
    rewrite (collect_vars g (a0 :: l) (sh_vars _ _ Q) ND LT d). clear EO ND. revert LT. generalize (a0 :: l).
    induction l0 as [|a r IH]; intros LT; simpl; constructor. apply nth_error_nth'. apply LT; left; auto. apply IH. intros b J. apply LT. right; auto.
  Qed.
  Lemma F2_nth {A B} (P : A -> B -> Prop) l l' : Forall2 P l l' -> forall k b, nth_error l' k = Some b -> exists a, nth_error l k = Some a /\ P a b.
  Proof. intros F. induction F; intros [|k] z Q; simpl in *; try discriminate; eauto. injection Q as <-. eauto. Qed.
  Lemma F2_len {A B} (P : A -> B -> Prop) l l' : Forall2 P l l' -> length l = length l'.
  Proof. intros F. induction F; simpl; congruence. Qed.
  Lemma nth_combine {A B} (l : list A) (l' : list B) : forall k a b, nth_error l k = Some a -> nth_error l' k = Some b -> nth_error (combine l l') k = Some (a, b).
  Proof. revert l'. induction l; intros [|b' l'] [|k] x y; simpl; try discriminate. intros [= ->] [= ->]; auto. auto. Qed.
  Lemma nth_combine_inv {A B} (l : list A) (l' : list B) : forall k a b, nth_error (combine l l') k = Some (a, b) -> nth_error l k = Some a /\ nth_error l' k = Some b.
  Proof. revert l'. induction l; intros [|b' l'] [|k] x y; simpl; try discriminate. intros [= -> ->]; auto. auto. Qed.
  Lemma map_fst_combine {A B} (l : list A) : forall l' : list B, length l = length l' -> map fst (combine l l') = l.
  Proof. induction l; intros [|b l'] L; simpl in *; try discriminate; auto. f_equal. auto. Qed.

  Lemma NoDup_parts {A} (l1 l2 : list A) : NoDup (l1 ++ l2) -> NoDup l1.
  Proof. induction l1; simpl; intros D; constructor; inversion D; subst; auto. intros J. apply H1. apply in_or_app; auto. Qed.
  Lemma nth_firstn {A} (l : list A) : forall n k, k < n -> nth_error (firstn n l) k = nth_error l k.
  Proof. induction l; intros [|n] [|k] L; simpl; auto; try lia. apply IHl. lia. Qed.

  Theorem C40_wrong_size : forall c e values, creach c -> env_ok e ->
    length values <> length (observed_variables e (graph_of c)) -> set_evidences e values (c_r c) = Thr (c_r c).
  Proof.
    intros c e values R E L. pose proof (creach_inv c R) as I. pose proof (observed_nth e _ _ (ci_shape _ I) E) as F. apply F2_len in F.
    pose proof (set_evidences_ok e values (c_r c) (ci_shape _ I) (cinv_good _ I) E) as Q. unfold graph_of in L. rewrite <- F in L.
    apply Nat.eqb_neq in L. rewrite L in Q. auto.
  Qed.

  (** what does not change *)
  Definition same_model s s' : Prop :=
    r_h s' = r_h s /\ r_const s' = r_const s /\ r_tun s' = r_tun s /\ r_tuners s' = r_tuners s /\
    g_vars (r_g s') = g_vars (r_g s) /\ g_all (r_g s') = g_all (r_g s) /\
    (forall v, hidden (r_g s') v <-> hidden (r_g s) v).

  Lemma evidence_iff H (g : gst) a v k : shape H g -> var_at g a v -> (evidence g v k <-> g_ev g a = Some k).
  Proof.
    intros Q V. split.
    - intros (b & Hb & X). destruct (var_at_inj g a b v v (sh_vars _ _ Q) V Hb eq_refl) as [-> _]. auto.
    - intros X. exists a. auto.
  Qed.
  Lemma hidden_iff H (g : gst) v : shape H g -> (hidden g v <-> exists a, var_at g a v /\ g_ev g a = None).
  Proof.
    intros Q. split.
    - intros [J NE]. apply In_nth_error in J as (a & V). exists a. split; auto. destruct (g_ev g a) as [k|] eqn:X; auto. exfalso. apply (NE k). exists a. auto.
    - intros (a & V & X). split. eapply nth_error_In; eauto. intros k Ek. apply (evidence_iff H g a v k Q V) in Ek. congruence.
  Qed.
  Lemma same_model_of s g l : cinv s -> shape (r_h s) g -> revalues (r_g s) g (assigned (g_ev (r_g s)) l) ->
    (forall p, In p l -> g_ev (r_g s) (fst p) <> None) -> same_model s (set_g s g).
  Proof.
    intros I Q R O. unfold same_model. cbn [r_h r_const r_tun r_tuners r_g set_g]. splits; auto; try apply R.
    intros v. rewrite (hidden_iff _ _ v Q), (hidden_iff _ _ v (ci_shape _ I)). unfold var_at. rewrite (rs_vars _ _ _ R).
    split; intros (a & V & X); exists a; split; auto; rewrite (rs_ev _ _ _ R) in *; apply (assigned_some l); auto; intros x k J; apply (O (x, k)); auto.
  Qed.

  (** The values before the first one that does not fit are assigned, in the order
      of [getEvidences()]. With [i = length values]: all of them. *)
  Lemma set_first c e values i : creach c -> env_ok e -> let vs := observed_variables e (graph_of c) in
    length values = length vs -> (forall k v x, k < i -> nth_error vs k = Some v -> nth_error values k = Some x -> x < vsize v) ->
    (i = length values \/ exists v x, nth_error vs i = Some v /\ nth_error values i = Some x /\ vsize v <= x) ->
    exists s', set_evidences e values (c_r c) = (if i =? length values then Ret tt s' else Thr s') /\ same_model (c_r c) s' /\
      (forall k v x, nth_error vs k = Some v -> nth_error values k = Some x ->
         if k <? i then evidence (r_g s') v x else forall y, evidence (r_g s') v y <-> evidence (graph_of c) v y).
  Proof.
    intros R E vs L FIT STOP. pose proof (creach_inv c R) as I. pose proof (observed_nth e _ _ (ci_shape _ I) E) as F. pose proof (F2_len _ _ _ F) as FL.
    pose proof (set_evidences_ok e values (c_r c) (ci_shape _ I) (cinv_good _ I) E) as Q.
    fold (graph_of c) in *. fold vs in F, FL. rewrite (proj2 (Nat.eqb_eq _ _)) in Q by congruence.
    set (ks := evidence_order e (graph_of c)) in *. set (l := combine ks values) in *.
    assert (LL : length l = length values) by (unfold l; rewrite combine_length; lia).
    assert (FT : fitting (graph_of c) l = firstn i l /\ forallb (fits (graph_of c)) l = (i =? length values)).
    { assert (A1 : forall k p, k < i -> nth_error l k = Some p -> fits (graph_of c) p = true).
      { intros k [a x] Lk Hp. unfold l in Hp. apply nth_combine_inv in Hp as [Ha Hx].
        destruct (nth_error vs k) as [v|] eqn:Hv. 2:{ apply nth_error_None in Hv. assert (k < length values) by (apply nth_error_Some; congruence). lia. }
        destruct (F2_nth _ _ _ F k v Hv) as (a' & Ha' & V). rewrite Ha in Ha'. injection Ha' as <-. unfold fits. cbn [fst snd]. unfold var_at in V. rewrite V.
        apply Nat.ltb_lt. eapply FIT; eauto. }
      assert (A2 : i = length l \/ exists p, nth_error l i = Some p /\ fits (graph_of c) p = false).
      { destruct STOP as [->|(v & x & Hv & Hx & G)]; auto. right. destruct (F2_nth _ _ _ F i v Hv) as (a & Ha & V). exists (a, x). split.
        apply nth_combine; auto. unfold fits. cbn [fst snd]. unfold var_at in V. rewrite V. apply Nat.ltb_ge. auto. }
      rewrite <- LL. clear -A1 A2. revert i A1 A2. induction l as [|p l IH]; intros i A1 A2; simpl.
      - destruct A2 as [->|(p & Q & _)]; auto. destruct i; discriminate.
      - destruct i as [|i]. destruct A2 as [?|(q & [= <-] & G)]; [discriminate|]. rewrite G. auto.
        rewrite (A1 0 p) by (simpl; auto; lia). cbn [firstn andb]. destruct (IH i) as [-> ->]; auto.
        { intros k q Lk. apply (A1 (S k)). lia. } { destruct A2 as [?|A2]; [left; simpl in *; lia|right; auto]. } }
    destruct FT as [FT1 FT2]. destruct Q as (g & Eg & RV & SH). rewrite FT2 in Eg. rewrite FT1 in RV.
    assert (O : forall p, In p l -> g_ev (graph_of c) (fst p) <> None).
    { intros [a k] J. apply in_combine_l in J. apply (evidence_order_in e) in J; auto. intros b j. apply cinv_lt; auto. }
    assert (OF : forall p, In p (firstn i l) -> g_ev (graph_of c) (fst p) <> None).
    { intros p J. apply O. rewrite <- (firstn_skipn i l). apply in_or_app; auto. }
    assert (NDl : NoDup (map fst l)). { unfold l. rewrite map_fst_combine by congruence. apply evidence_order_nd; auto. }
    exists (set_g (c_r c) g). splits; auto. { eapply same_model_of; eauto. }
    intros k v x Hv Hx. destruct (F2_nth _ _ _ F k v Hv) as (a & Ha & V).
    assert (V' : var_at g a v) by (unfold var_at in *; rewrite (rs_vars _ _ _ RV); auto).
    assert (Hl : nth_error l k = Some (a, x)) by (apply nth_combine; auto). cbn [r_g set_g].
    destruct (Nat.ltb_spec k i) as [Lk|Lk].
    - apply (evidence_iff _ g a v x SH V'). rewrite (rs_ev _ _ _ RV). apply assigned_in.
      + rewrite <- firstn_map. rewrite <- (firstn_skipn i (map fst l)) in NDl. eapply NoDup_parts; eauto.
      + apply (nth_error_In _ k). rewrite nth_firstn; auto.
    - intros y. rewrite (evidence_iff _ g a v y SH V'), (evidence_iff _ _ a v y (ci_shape _ I) V), (rs_ev _ _ _ RV), assigned_out; [tauto|].
      intros J. rewrite <- firstn_map in J. apply In_nth_error in J as (j & Hj).
      assert (Lj : j < i). { destruct (Nat.lt_ge_cases j i); auto. exfalso. assert (X : nth_error (firstn i (map fst l)) j <> None) by congruence. apply nth_error_Some in X. rewrite firstn_length in X. lia. }
      rewrite nth_firstn in Hj by auto. assert (Hk : nth_error (map fst l) k = Some a) by (rewrite nth_error_map, Hl; auto).
      assert (j = k); [|lia]. eapply (NoDup_nth_error (map fst l)); auto. apply nth_error_Some. congruence. congruence.
  Qed.

  (** Values for every observed variable, each within its size: the [k]-th value is
      assigned to the [k]-th variable in the order of [getEvidences()], which is the
      order of the loop, and not the one of [getObservedVariables()], see
      [C40_order_refuted] *)
  Theorem C40_sets_partial : forall c e values, creach c -> env_ok e -> let vs := observed_variables e (graph_of c) in
    length values = length vs -> (forall k v x, nth_error vs k = Some v -> nth_error values k = Some x -> x < vsize v) ->
    exists s', set_evidences e values (c_r c) = Ret tt s' /\ same_model (c_r c) s' /\
      forall k v x, nth_error vs k = Some v -> nth_error values k = Some x -> evidence (r_g s') v x.
  Proof.
    intros c e values R E vs L FIT. destruct (set_first c e values (length values) R E L) as (s' & Q & M & F); eauto.
    rewrite Nat.eqb_refl in Q. exists s'. splits; auto. intros k v x Hv Hx. specialize (F k v x Hv Hx).
    assert (k < length values) by (apply nth_error_Some; congruence). rewrite (proj2 (Nat.ltb_lt _ _)) in F by auto. auto.
  Qed.
  (** A value out of range: the call throws, and the values before it are already
      assigned *)
  Theorem C40_wrong_value : forall c e values i v x, creach c -> env_ok e -> let vs := observed_variables e (graph_of c) in
    length values = length vs -> nth_error vs i = Some v -> nth_error values i = Some x -> vsize v <= x ->
    (forall k v x, k < i -> nth_error vs k = Some v -> nth_error values k = Some x -> x < vsize v) ->
    exists s', set_evidences e values (c_r c) = Thr s' /\ same_model (c_r c) s' /\
      (forall k v x, k < i -> nth_error vs k = Some v -> nth_error values k = Some x -> evidence (r_g s') v x) /\
      (forall k v y, i <= k -> nth_error vs k = Some v -> evidence (r_g s') v y <-> evidence (graph_of c) v y).
  Proof.
    intros c e values i v x R E vs L Hv Hx G FIT. destruct (set_first c e values i R E L) as (s' & Q & M & F); eauto.
    { right. eauto. }
    assert (Li : i < length values) by (apply nth_error_Some; congruence). rewrite (proj2 (Nat.eqb_neq _ _)) in Q by lia.
    exists s'. splits; auto.
    - intros k v' x' Lk Hv' Hx'. specialize (F k v' x' Hv' Hx'). rewrite (proj2 (Nat.ltb_lt _ _)) in F by auto. auto.
    - intros k v' y Lk Hv'. destruct (nth_error values k) as [x'|] eqn:Hx'.
      + specialize (F k v' x' Hv' Hx'). rewrite (proj2 (Nat.ltb_ge _ _)) in F by auto. auto.
      + apply nth_error_None in Hx'. assert (k < length vs) by (apply nth_error_Some; congruence). lia.
  Qed.
  (** the property as stated, when the two containers are visited in the same order *)
  Theorem C40_same_order : forall c e values, creach c -> env_ok e -> let vs := observed_order e (graph_of c) in
    vs = observed_variables e (graph_of c) ->
    length values = length vs -> (forall k v x, nth_error vs k = Some v -> nth_error values k = Some x -> x < vsize v) ->
    exists s', set_evidences e values (c_r c) = Ret tt s' /\ same_model (c_r c) s' /\
      forall k v x, nth_error vs k = Some v -> nth_error values k = Some x -> evidence (r_g s') v x.
  Proof. intros c e values R E vs Q. rewrite Q. apply C40_sets_partial; auto. Qed.
  (** both orders list exactly the observed variables, each once *)
  Theorem C40_observed : forall c e v, creach c -> env_ok e ->
    (In v (observed_order e (graph_of c)) <-> exists k, evidence (graph_of c) v k) /\
    (In v (observed_variables e (graph_of c)) <-> exists k, evidence (graph_of c) v k) /\
    NoDup (observed_order e (graph_of c)) /\ NoDup (observed_variables e (graph_of c)).
  Proof.
    intros c e v R E. pose proof (creach_inv c R) as I. pose proof (observed_nth e _ _ (ci_shape _ I) E) as F. fold (graph_of c) in F.
    assert (P : Permutation (observed_order e (graph_of c)) (observed_variables e (graph_of c))). { apply permute_perm. apply E. }
    assert (A : In v (observed_variables e (graph_of c)) <-> exists k, evidence (graph_of c) v k).
    { split.
      - intros J. apply In_nth_error in J as (k & Hk). destruct (F2_nth _ _ _ F k v Hk) as (a & Ha & V). apply nth_error_In in Ha.
        apply (evidence_order_in e) in Ha; auto. 2:{ intros b j. apply cinv_lt; auto. } destruct (g_ev (graph_of c) a) as [x|] eqn:X; [|congruence]. exists x, a. auto.
      - intros (x & a & V & X). assert (J : In a (evidence_order e (graph_of c))). { apply evidence_order_in; auto. intros b j. apply cinv_lt; auto. congruence. }
        clear -J V F. induction F; simpl in *; [tauto|]. destruct J as [->|J]; auto. left. unfold var_at in *. congruence. }
    assert (ND : NoDup (observed_variables e (graph_of c))).
    { pose proof (evidence_order_nd e (graph_of c) E) as D. pose proof (sh_vars _ _ (ci_shape _ I)) as SV. fold (graph_of c) in SV. clear -F D SV.
      induction F; constructor; inversion D; subst; auto. intros J. apply In_nth_error in J as (k & Hk). destruct (F2_nth _ _ _ F k y Hk) as (b & Hb & V).
      destruct (var_at_inj (graph_of c) x b y y SV H V eq_refl) as [-> _]. apply nth_error_In in Hb. auto. }
    splits; auto. rewrite <- A. split; apply Permutation_in; auto. apply Permutation_sym; auto.
    eapply Permutation_NoDup; [apply Permutation_sym|]; eauto.
  Qed.
End C40.

(** {1 C41} *)
Section C41.
  Context {N : num} (OK : num_ok N).
  Notation gst := (gst (N:=N)).
  Notation rst := (rst (N:=N)).
  Notation crf := (crf (N:=N)).
  Implicit Types c : crf.
  Implicit Types s : rst.
  Implicit Types e : env.

  (** the visits, one after the other; the samples are gathered *)
  Fixpoint one_by_one (visit : nat -> list nat -> rst -> out rst (list (list nat))) (k : nat) (combs : list (list nat)) s : out rst (list (list nat)) :=
    match combs with
    | [] => Ret [] s
    | c :: rest => do (x, s) <- visit k c s ;; do (y, s) <- one_by_one visit (S k) rest s ;; Ret (x ++ y) s
    end.
  (** a visit: the combination is made the evidence, then samples are drawn *)
  Definition visit draw ceil10 es ctx threads (k : nat) (comb : list nat) s : out rst (list (list nat)) :=
    do (_, s) <- set_evidences (es k) comb s ;; on_g (make_samples (r_h s) (draw k) (es k) ceil10 ctx threads) s.

  Lemma all_loop_one body cs : forall k acc s, all_loop body k cs acc s = do (y, s) <- one_by_one body k cs s ;; Ret (acc ++ y) s.
  Proof.
    induction cs as [|c cs IH]; intros k acc s; simpl. rewrite app_nil_r; auto.
    destruct (body k c s); simpl; auto. rewrite IH. destruct (one_by_one body (S k) cs s0); simpl; auto. rewrite app_assoc. auto.
  Qed.
  Lemma bind_nil (o : out rst (list (list nat))) : (do (y, s) <- o ;; Ret ([] ++ y) s) = o.
  Proof. destruct o; auto. Qed.

  (** one element every [d], after the first [i] *)
  Fixpoint pick {A} (d i : nat) (l : list A) : list A :=
    match l with
    | [] => []
    | x :: r => match i with 0 => x :: pick d (d - 1) r | S i => pick d i r end
    end.
  Lemma pick_skip {A} d (l : list A) : forall i, pick d i l = pick d 0 (skipn i l).
  Proof. induction l; intros [|i]; simpl; auto. Qed.
  Lemma pick_nth {A} d (l : list A) : 1 <= d -> forall j i, nth_error (pick d i l) j = nth_error l (i + j * d).
  Proof.
    intros D. induction l as [|x l IH]; intros j i; simpl. destruct j, (i + _); auto. destruct i as [|i]; simpl; auto.
    destruct j as [|j]; simpl; auto. rewrite IH. destruct d as [|d]; [lia|]. simpl. f_equal. lia.
  Qed.
  Lemma skipn_nth {A} (l : list A) : forall k x, nth_error l k = Some x -> skipn k l = x :: skipn (S k) l.
  Proof. induction l; intros [|k] x Q; simpl in *; try discriminate. congruence. rewrite (IHl _ _ Q). auto. Qed.
  Lemma skipn_skipn' {A} (l : list A) : forall a b, skipn a (skipn b l) = skipn (a + b) l.
  Proof. intros a b. revert l. induction b; intros l; simpl. f_equal; lia. rewrite Nat.add_succ_r. destruct l; simpl. apply skipn_nil. auto. Qed.

  Lemma advance_ok sizes comb f n : sizes <> [] -> valid_comb sizes comb -> idx sizes comb + n < prodn sizes ->
    exists comb', range_advance n (Some (mkRData sizes comb f)) = Ok (Some (mkRData sizes comb' f)) /\ valid_comb sizes comb' /\ idx sizes comb' = idx sizes comb + n.
  Proof.
    intros NE. revert comb. induction n as [|n IH]; intros comb V L; cbn [range_advance]. exists comb. splits; auto; lia.
    pose proof (range_incr_spec sizes comb f NE V) as Q. destruct (range_incr _) as [[d|]| | | |]; try contradiction; cbn [rbind]. 2: lia.
    destruct Q as (Q1 & Q2 & Q3 & Q4). destruct d as [sz cb fl]. simpl in *. subst. destruct (IH cb Q3) as (c' & -> & V' & X). lia. exists c'. splits; auto; lia.
  Qed.

  Lemma some_loop_ok body sizes d f : sizes <> [] -> 1 <= d -> forall fuel n k comb acc s, valid_comb sizes comb -> idx sizes comb = k -> prodn sizes <= fuel + k ->
    some_loop body fuel n d (prodn sizes) k (Some (mkRData sizes comb f)) acc s = all_loop body n (pick d 0 (skipn k (all_combs sizes))) acc s.
  Proof.
    intros NE D. induction fuel as [|fuel IH]; intros n k comb acc s V X L.
    - assert (k < prodn sizes) by (subst; apply idx_lt; auto). lia.
    - pose proof (idx_lt sizes comb V) as LT. cbn [some_loop]. rewrite (proj2 (Nat.ltb_lt _ _)) by lia. cbn [range_get lift obind r_comb].
      pose proof (nth_error_all_combs sizes comb V) as NE'. rewrite X in NE'. rewrite (skipn_nth _ _ _ NE'). cbn [pick all_loop].
      rewrite pick_skip, skipn_skipn'. replace (d - 1 + S k) with (k + d) by lia.
      destruct (body n comb s) as [x s1| | | |]; simpl; auto. destruct (Nat.leb_spec (prodn sizes) (k + d)) as [G|G].
      + rewrite skipn_all2; auto. rewrite all_combs_length. auto.
      + destruct (advance_ok sizes comb f d NE V) as (c' & -> & V' & X'). lia. cbn [lift obind]. apply IH; auto; lia.
  Qed.

  Lemma observed_group c e : creach c -> env_ok e -> let vs := observed_order e (graph_of c) in vs <> [] ->
    group_ctor vs = Ok (mkGroup vs vs) /\ Forall (lt 0) (map vsize vs).
  Proof.
    intros R E vs NE. pose proof (creach_inv c R) as I. split.
    - apply group_ctor_ok. splits; auto. assert (P : Permutation vs (observed_variables e (graph_of c))). { apply permute_perm. apply E. }
      eapply Permutation_NoDup. apply Permutation_sym, Permutation_map, P.
      pose proof (observed_nth e _ _ (ci_shape _ I) E) as F. fold (graph_of c) in F.
      pose proof (evidence_order_nd e (graph_of c) E) as D. pose proof (sh_vars _ _ (ci_shape _ I)) as SV. fold (graph_of c) in SV. clear -F D SV.
      induction F; simpl; constructor; inversion D; subst; auto. intros J. apply in_map_iff in J as (z & Kz & J). apply In_nth_error in J as (k & Hk).
      destruct (F2_nth _ _ _ F k z Hk) as (b & Hb & V). destruct (var_at_inj (graph_of c) x b y z SV H V (eq_sym Kz)) as [-> _]. apply nth_error_In in Hb. auto.
    - apply Forall_forall. intros n J. apply in_map_iff in J as (v & <- & J). apply (C40_observed c e v R E) in J as (k & a & V & X).
      destruct (sh_ev _ _ (ci_shape _ I) a k X) as (w & W & L). fold (graph_of c) in W. unfold var_at in W. rewrite V in W. injection W as <-. lia.
  Qed.

  (** a conditional random field has at least one observed variable *)
  Definition some_observed s : Prop := exists a, g_ev (r_g s) a <> None.
  Lemma src_evidences_some P e (src : rst) (l : list nat) : env_ok e -> forall s s', coh P s ->
    ofold (fun a s =>
             do (v, s) <- lift (node_var (r_g src) a) s ;;
             match g_ev (r_g src) a with
             | None => Undef
             | Some k =>
                 do (w, s) <- lift (find_variable (r_g s) (vname v)) s ;;
                 on_g (fun g => set_evidence (r_h s) e g w k) s
             end) l s = Ret tt s' -> l <> [] \/ some_observed s -> some_observed s'.
  Proof.
    intros E. induction l as [|a l IH]; cbn [ofold]; intros s s' C Q L. injection Q as <-; destruct L; congruence.
    destruct (node_var (r_g src) a) as [v| | | |]; cbn [lift obind] in Q; try discriminate.
    destruct (g_ev (r_g src) a) as [k|]; [|discriminate].
    destruct (find_variable (r_g s) (vname v)) as [w| | | |]; cbn [lift obind] in Q; try discriminate.
    pose proof (set_ev_coh P s e w k C E) as X.
    assert (Y : match on_g (fun g => set_evidence (r_h s) e g w k) s with Ret _ s1 => some_observed s1 | _ => True end).
    { unfold on_g. destruct (set_evidence_ok (r_h s) (coh_solid P s C) (r_g s) (g_all (r_g s)) e w k (proj1 (ch_inv _ _ C)) (proj2 (ch_inv _ _ C)) E) as [[_ ->]|(_ & b & g & _ & -> & _ & _ & _ & Q' & _)]; auto.
      exists b. cbn [r_g set_g]. rewrite Q', fupd_eq. discriminate. }
    destruct (on_g _ s) as [[] s1|s1| | |]; cbn [obind] in *; try discriminate. eauto.
  Qed.
  Lemma crf_ctor_some e src copy c s : (forall f, built (r_h src f)) -> env_ok e -> rinv src -> crf_ctor e src copy = Ret c s -> some_observed s.
  Proof.
    intros Hb E I. unfold crf_ctor, crf_absorb. destruct (keys (gsize (r_g src)) (g_ev (r_g src))) eqn:K; [discriminate|].
    pose proof (absorb_start e src copy) as A.
    destruct (absorb_const _ copy _) as [[] s1|s1| | |]; cbn [obind] in *; try discriminate.
    destruct (absorb_clusters copy (tunable_clusters src) s1) as [[] s2|s2| | |] eqn:E2; cbn [obind] in *; try discriminate.
    destruct (A s2 Hb E I eq_refl) as [C2 _].
    match goal with |- context [ofold ?f ?l s2] => destruct (ofold f l s2) as [[] s3|s3| | |] eqn:E3 end; cbn [obind] in *; try discriminate.
    apply (src_evidences_some True) in E3; auto.
    2:{ left. unfold evidence_order. rewrite K. intros X. pose proof (proj1 E (gsize (r_g src)) (n :: l)) as P. rewrite X in P. apply Permutation_nil in P. discriminate. }
    destruct (rmap (replace_tuner s3) (r_tuners s3)) as [ts| | | |] eqn:ET; cbn [lift obind]; try discriminate.
    intros [= <- <-]. exact E3.
  Qed.
  Lemma creach_some c : creach c -> some_observed (c_r c).
  Proof.
    intros R. induction R as [h top src e copy c s Hb R E Q|c0 e c s R IH E Q|c e op a s R IH K E Q|c e op s R IH K E Q].
    - pose proof (rreach_inv h top any src Hb R) as I. pose proof Q as Q'. apply (crf_ctor_coh) in Q' as (_ & -> & _); auto. eapply crf_ctor_some; eauto. all: apply I.
    - pose proof (creach_inv c0 R) as I. pose proof Q as Q'. apply (crf_ctor_coh) in Q' as (_ & -> & _); auto. eapply crf_ctor_some; eauto. all: apply (ci_r _ I).
    - pose proof (ccall_cst e (c_pos c) op (c_r c) (creach_inv c R) K E) as X. rewrite Q in X. destruct IH as (x & Hx). exists x. cbn [c_r]. rewrite (fz_obs _ _ (cp_fz _ _ X)). auto.
    - pose proof (ccall_cst e (c_pos c) op (c_r c) (creach_inv c R) K E) as X. rewrite Q in X. destruct IH as (x & Hx). exists x. cbn [c_r]. rewrite (fz_obs _ _ (cp_fz _ _ X)). auto.
  Qed.
  Lemma observed_some c e : creach c -> env_ok e -> observed_order e (graph_of c) <> [].
  Proof.
    intros R E X. destruct (creach_some c R) as (a & Ha). destruct (g_ev (r_g (c_r c)) a) as [k|] eqn:Ea; [|congruence].
    destruct (sh_ev _ _ (ci_shape _ (creach_inv c R)) a k Ea) as (v & V & _).
    assert (J : In v (observed_order e (graph_of c))). { apply (C40_observed c e v R E). exists k, a. auto. } rewrite X in J. destruct J.
  Qed.

  Lemma num_irrefl (x : N) : nltb x x = false.
  Proof. destruct (nltb x x) eqn:E; auto. exfalso. eapply (nlt_asym OK); eauto. Qed.
  Lemma num_asym (x y : N) : nltb x y = true -> nltb y x = false.
  Proof. intros A. destruct (nltb y x) eqn:E; auto. exfalso. eapply (nlt_asym OK); eauto. Qed.

  Lemma group_size_prod vs : group_size (mkGroup vs vs) = prodn (map vsize vs).
  Proof.
    unfold group_size. cbn [g_soup]. assert (G : forall l a, fold_left (fun S v => S * vsize v) l a = a * prodn (map vsize l)).
    { induction l as [|v l IH]; intros a; simpl. lia. rewrite IH. lia. }
    rewrite G. lia.
  Qed.

  Theorem C41_percentage : forall c draw floorf ceil10 e es ctx p threads, (n1 < p)%num \/ (p < n0)%num ->
    make_crf_train_set draw floorf ceil10 e es ctx p threads (c_r c) = Thr (c_r c).
  Proof. intros c draw floorf ceil10 e es ctx p threads Q. unfold make_crf_train_set. assert (X : nltb n1 p || nltb p n0 = true) by (apply orb_true_iff; exact Q). rewrite X. auto. Qed.

  (** With percentage 1 the combinations of the observed variables, in the order of
      [getObservedVariables()], are all visited, each once, in the order of C01. *)
  Theorem C41_all_combinations_partial : forall c draw floorf ceil10 e es ctx threads, creach c -> env_ok e ->
    let vs := observed_order e (graph_of c) in
    make_crf_train_set draw floorf ceil10 e es ctx n1 threads (c_r c) =
    one_by_one (visit draw ceil10 es ctx threads) 0 (all_combs (map vsize vs)) (c_r c).
  Proof.
    intros c draw floorf ceil10 e es ctx threads R E vs. destruct (observed_group c e R E (observed_some c e R E)) as [G POS]. fold vs in G, POS.
    unfold make_crf_train_set. rewrite num_irrefl. assert (X : nltb n1 n0 = false) by (apply num_asym, (nlt_0_1 OK)). rewrite X. cbn [orb]. fold (graph_of c). fold vs. rewrite G. cbn [lift obind g_soup].
    assert (Y : neqb n1 (n1 : N) = true) by (apply (ok_eqb N OK); auto). rewrite Y. rewrite range_all_ok; auto.
    - cbn [lift obind]. rewrite all_loop_one, bind_nil. reflexivity.
    - intros Z. apply map_eq_nil in Z. eapply observed_some; eauto.
  Qed.

  Add Field NFieldCrf : (ok_field N OK).
  Lemma nofnat_mono a b : (nofnat a <= (nofnat b : N))%num -> a <= b.
  Proof.
    intros L. destruct (Nat.le_gt_cases a b) as [|G]; auto. exfalso.
    assert (X : forall d, (nofnat (d + b)%nat : N) = (nofnat d + nofnat b)%num). { induction d; cbn [nofnat Nat.add]. ring. rewrite IHd. ring. }
    replace a with ((a - b) + b) in L by lia. rewrite X in L. pose proof (nofnat_pos OK (a - b) ltac:(lia)) as P.
    assert (Z : (nofnat b < (nofnat (a - b)%nat + nofnat b : N))%num). { apply (nlt_0_sub OK). replace (nofnat (a - b)%nat + nofnat b - nofnat b)%num with (nofnat (a - b)%nat : N) by ring. auto. }
    rewrite Z in L. discriminate.
  Qed.
  Lemma wanted_le floorf max (p : N) : rounds_down floorf -> nltb p n0 = false -> (p < n1)%num -> floorf (nofnat max * p)%num <= max.
  Proof.
    intros FL P0 P1. apply nofnat_mono. eapply (nle_trans OK). apply FL. apply (nmul_nonneg OK); auto. apply (nofnat_nonneg OK).
    apply (nle_trans OK) with (nofnat max * n1 : N)%num. apply (nmul_le_l OK). apply (nofnat_nonneg OK). apply (nlt_le OK); auto.
    replace (nofnat max * n1 : N)%num with (nofnat max : N) by ring. apply (nle_refl OK).
  Qed.

  (** With a smaller percentage the visited combinations are those at the positions
      0, d, 2d, ..., for d the quotient of the number of combinations by the wanted
      number: if the latter is not 0 the range is never incremented past its end,
      and at least the wanted number of combinations is visited. What is missing:
      the smaller percentages, see [C41_small_percentage]. *)
  Theorem C41_some_combinations_partial : forall c draw floorf ceil10 e es ctx p threads, rounds_down floorf -> creach c -> env_ok e ->
    let vs := observed_order e (graph_of c) in
    let combs := all_combs (map vsize vs) in
    let wanted := floorf (nofnat (length combs) * p)%num in
    (n0 <= p)%num -> (p < n1)%num -> (n1 <= nofnat (length combs) * p)%num ->
    exists visited, (forall j, nth_error visited j = nth_error combs (j * (length combs / wanted))) /\ wanted <= length visited /\
      make_crf_train_set draw floorf ceil10 e es ctx p threads (c_r c) = one_by_one (visit draw ceil10 es ctx threads) 0 visited (c_r c).
  Proof.
    intros c draw floorf ceil10 e es ctx p threads FL R E vs combs wanted P0 P1 W0.
    assert (W : 1 <= wanted <= length combs).
    { split. 2: apply wanted_le; auto. destruct (FL (nofnat (length combs) * p)%num) as [_ F]. apply (nle_trans OK) with n1; auto. apply (nlt_le OK), (nlt_0_1 OK).
      fold wanted in F. destruct wanted; [|lia]. cbn [nofnat] in F. replace (n0 + n1)%num with (n1 : N) in F by ring. rewrite F in W0. discriminate. }
    clear W0. destruct (observed_group c e R E (observed_some c e R E)) as [G POS]. fold vs in G, POS.
    set (d := length combs / wanted). assert (D : 1 <= d) by (apply Nat.div_le_lower_bound; lia).
    exists (pick d 0 combs). assert (NT : forall j, nth_error (pick d 0 combs) j = nth_error combs (j * d)) by (intros j; apply (pick_nth d combs D j 0)). splits; auto.
    { assert (X : nth_error (pick d 0 combs) (wanted - 1) <> None).
      { rewrite NT. apply nth_error_Some. pose proof (Nat.mul_div_le (length combs) wanted ltac:(lia)). fold d in H. nia. }
      apply nth_error_Some in X. lia. }
    unfold make_crf_train_set. assert (X : nltb n1 p = false) by (apply num_asym; auto). rewrite X, P0. cbn [orb]. fold (graph_of c). fold vs. rewrite G. cbn [lift obind].
    assert (Y : neqb n1 p = false). { apply (neqb_false OK). intros <-. rewrite num_irrefl in P1. discriminate. } rewrite Y.
    assert (LC : group_size (mkGroup vs vs) = length combs) by (unfold combs; rewrite all_combs_length; apply group_size_prod).
    rewrite LC. fold wanted. destruct wanted as [|w] eqn:EW; [lia|]. fold d. unfold range_of_group, range_ctor. cbn [g_soup].
    assert (NE : map vsize vs <> []). { intros Z. apply map_eq_nil in Z. eapply observed_some; eauto. }
    unfold combs at 1 2. rewrite all_combs_length. rewrite some_loop_ok; auto.
    - rewrite all_loop_one, bind_nil. reflexivity.
    - apply valid_zeros; auto.
    - apply idx_zero_comb.
    - lia.
  Qed.
  (** otherwise the integer division is by zero *)
  Theorem C41_small_percentage : forall c draw floorf ceil10 e es ctx p threads, rounds_down floorf -> creach c -> env_ok e ->
    (n0 <= p)%num -> (nofnat (length (all_combs (map vsize (observed_order e (graph_of c))))) * p < n1)%num ->
    make_crf_train_set draw floorf ceil10 e es ctx p threads (c_r c) = Undef.
  Proof.
    intros c draw floorf ceil10 e es ctx p threads FL R E P0 W0. pose proof (observed_group c e R E (observed_some c e R E)) as [_ POS0].
    set (m := length (all_combs (map vsize (observed_order e (graph_of c))))) in *.
    assert (M : (n1 <= (nofnat m : N))%num).
    { assert (M : 1 <= m). { unfold m. rewrite all_combs_length. clear -POS0. induction POS0; simpl; nia. }
      destruct m as [|m]; [lia|]. cbn [nofnat]. apply (nle_trans OK) with (n1 + n0 : N)%num. replace (n1 + n0 : N)%num with (n1 : N) by ring. apply (nle_refl OK). apply (nle_add OK). apply (nle_refl OK). apply (nofnat_nonneg OK). }
    assert (P1 : (p < n1)%num).
    { eapply (nle_lt_trans OK); [|exact W0]. apply (nle_trans OK) with (p * n1)%num. replace (p * n1)%num with p by ring. apply (nle_refl OK). replace (nofnat m * p)%num with (p * nofnat m)%num by ring. apply (nmul_le_l OK); auto. }
    assert (W : floorf (nofnat m * p)%num = 0).
    { destruct (FL (nofnat m * p)%num) as [F _]. apply (nmul_nonneg OK); auto. apply (nofnat_nonneg OK). destruct (floorf (nofnat m * p)%num) as [|w]; auto. exfalso.
      cbn [nofnat] in F. assert (X : (n1 <= nofnat m * p)%num). { eapply (nle_trans OK); [|exact F]. apply (nle_trans OK) with (n1 + n0 : N)%num. replace (n1 + n0 : N)%num with (n1 : N) by ring. apply (nle_refl OK). apply (nle_add OK). apply (nle_refl OK). apply (nofnat_nonneg OK). }
      rewrite W0 in X. discriminate. }
    unfold m in W. clear m M W0. destruct (observed_group c e R E (observed_some c e R E)) as [G POS].
    unfold make_crf_train_set. assert (X : nltb n1 p = false) by (apply num_asym; auto). rewrite X, P0. cbn [orb]. fold (graph_of c). rewrite G. cbn [lift obind].
    assert (Y : neqb n1 p = false). { apply (neqb_false OK). intros <-. rewrite num_irrefl in P1. discriminate. } rewrite Y.
    assert (LC : group_size (mkGroup (observed_order e (graph_of c)) (observed_order e (graph_of c))) = length (all_combs (map vsize (observed_order e (graph_of c)))))
      by (rewrite all_combs_length; apply group_size_prod).
    rewrite LC, W. auto.
  Qed.
End C41.

(** {1 C50} *)
Section C50.
  Context {N : num} (OK : num_ok N).
  Notation rst := (rst (N:=N)).
  Notation crf := (crf (N:=N)).
  Implicit Types c : crf.
  Implicit Types s : rst.

  (** [later c c']: [c'] is what [c] has become after some calls *)
  Inductive later c : crf -> Prop :=
  | L_same : later c c
  | L_call c' e op o s : later c c' -> cok op -> env_ok e -> ccall e (c_pos c') op (c_r c') = o ->
      match o with Ret _ s' | Thr s' => s = s' | _ => False end -> later c (mkC s (c_pos c')).

  (** The variables, the factors, the sharing of the weights and the set of the
      observed variables never change. *)
  Theorem C50_immutable : forall c c', creach c -> later c c' ->
    g_vars (graph_of c') = g_vars (graph_of c) /\ g_all (graph_of c') = g_all (graph_of c) /\
    r_const (c_r c') = r_const (c_r c) /\ tunable_clusters (c_r c') = tunable_clusters (c_r c) /\
    (forall f, f_vars (r_h (c_r c') f) = f_vars (r_h (c_r c) f)) /\
    (forall v, hidden (graph_of c') v <-> hidden (graph_of c) v) /\
    (forall v, (exists k, evidence (graph_of c') v k) <-> (exists k, evidence (graph_of c) v k)).
  Proof.
    intros c c' R L. assert (Q : creach c' /\ frozen (c_r c) (c_r c')).
    { induction L as [|c' e op o s L [IH1 IH2] K E Q M]. split; auto. apply frozen_refl.
      pose proof (ccall_cst e (c_pos c') op (c_r c') (creach_inv c' IH1) K E) as X. rewrite Q in X.
      destruct o as [a s'|s'| | |]; try contradiction; subst s'; cbn [c_r]; (split; [|eapply frozen_trans; [exact IH2|apply X]]). eapply CR_ret; eauto. eapply CR_thr; eauto. }
    destruct Q as [R' F]. pose proof (creach_inv c R) as I. pose proof (creach_inv c' R') as I'. unfold graph_of, tunable_clusters, f_vars. destruct F as [F1 F2 F3 F4 F5 F6 F7 F8].
    splits; auto.
    - rewrite F5. auto.
    - intros f. rewrite F2. auto.
    - intros v. rewrite (hidden_iff _ _ v (ci_shape _ I')), (hidden_iff _ _ v (ci_shape _ I)). unfold var_at. rewrite F6. split; intros (a & V & X); exists a; split; auto; apply F8; auto.
    - intros v. unfold evidence. rewrite F6. split; intros (k & a & V & X).
      + destruct (g_ev (r_g (c_r c)) a) as [j|] eqn:Y; eauto. apply F8 in Y. congruence.
      + destruct (g_ev (r_g (c_r c')) a) as [j|] eqn:Y; eauto. apply F8 in Y. congruence.
  Qed.
End C50.
Print Assumptions C40_wrong_size.
Print Assumptions C40_sets_partial.
Print Assumptions C40_wrong_value.
Print Assumptions C40_same_order.
Print Assumptions C40_observed.
Print Assumptions C41_percentage.
Print Assumptions C41_all_combinations_partial.
Print Assumptions C41_some_combinations_partial.
Print Assumptions C41_small_percentage.
Print Assumptions C50_immutable.
