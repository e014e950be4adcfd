(** Properties of the training sets, of the tunable factors and of the weights
    (C37, C38, C42) *)
From Coq Require Import String List Arith Bool Lia Permutation QArith Qcanon.
From Verif Require Import Res Num Categoric Combs Func FuncProofs GroupProofs FactorProofs FactorApi Special SpecialProofs
  Graph GraphLemmas Clusters Belief Query GraphInv EvidInv BeliefInv GraphSpec Hist Train TrainHist P_Categoric P_Factor Demo TrainDemo.
Import ListNotations.
Open Scope nat_scope.

(** {1 Training sets} *)

(** C42. The constructor of [TrainSet] returns the combinations exactly when there
    is at least one and all have the same non null length, otherwise it throws. *)
Definition regular (combs : list (list nat)) : Prop :=
  combs <> [] /\ exists n, 0 < n /\ forall c, In c combs -> length c = n.

Theorem C42_train_set : forall combs,
  (regular combs -> make_train_set combs = Ok combs) /\ (~ regular combs -> make_train_set combs = Throw).
Proof.
  intros combs. unfold regular. destruct combs as [|c combs]; unfold make_train_set. { split; [intros [[] _]|]; auto. }
  set (bad := fun d : list nat => (length d =? 0) || negb (length c =? length d)).
  change (existsb _ (c :: combs)) with (existsb bad (c :: combs)). destruct (existsb bad (c :: combs)) eqn:E.
  - split; [|auto]. intros (_ & n & P & F). exfalso. apply existsb_exists in E as (d & J & B). unfold bad in B.
    apply orb_true_iff in B. rewrite negb_true_iff, Nat.eqb_eq, Nat.eqb_neq in B. pose proof (F c (or_introl eq_refl)). pose proof (F d J). lia.
  - split; auto. intros NR. exfalso. apply NR. split. discriminate. exists (length c).
    assert (F : forall d, In d (c :: combs) -> length d <> 0 /\ length c = length d).
    { intros d J. assert (B : bad d = false). { destruct (bad d) eqn:Q; auto. exfalso.
        assert (existsb bad (c :: combs) = true) by (apply existsb_exists; eauto). congruence. }
      unfold bad in B. apply orb_false_iff in B as [B1 B2]. apply negb_false_iff, Nat.eqb_eq in B2. apply Nat.eqb_neq in B1. auto. }
    split. destruct (F c (or_introl eq_refl)). lia. intros d J. symmetry. apply F; auto.
Qed.
Print Assumptions C42_train_set.

Example C42_example : regular [[0; 1]; [2; 1]] /\ ~ regular [[0; 1]; [2]] /\ ~ regular [[]] /\ ~ regular [].
Proof.
  split. { split. discriminate. exists 2. split; auto. intros c [<-|[<-|[]]]; auto. }
  split. { intros (_ & n & _ & F). pose proof (F [0; 1] (or_introl eq_refl)). pose proof (F [2] (or_intror (or_introl eq_refl))). simpl in *. lia. }
  split. { intros (_ & n & P & F). pose proof (F [] (or_introl eq_refl)). simpl in *. lia. }
  intros [[] _]. auto.
Qed.

Section Sub.
  Context {N : num} (OK : num_ok N).
  Variable floorf : N -> nat.
  (** [floorf] gives the integer part *)
  Definition rounds_down : Prop := forall x : N, (n0 <= x)%num -> (nofnat (floorf x) <= x /\ x < nofnat (floorf x) + n1)%num.
  Variable rand : nat -> nat.

  (** C42. The iterator with percentage 1 visits all the combinations, in order. A
      percentage out of (0, 1] is rejected. Otherwise the iterator visits
      floor(percentage * size) combinations, all taken from the set. *)
  Theorem C42_iterator : rounds_down -> forall combs (p : N), make_train_set combs = Ok combs ->
    (p = n1 -> exists it, iter_ctor floorf rand combs p = Ok it /\ iter_samples it = Ok combs /\ iter_size it = length combs) /\
    ((p <= n0)%num \/ (n1 < p)%num -> iter_ctor floorf rand combs p = Throw) /\
    ((n0 < p)%num -> (p < n1)%num ->
       exists it samples, iter_ctor floorf rand combs p = Ok it /\ iter_samples it = Ok samples /\
         length samples = iter_size it /\
         (nofnat (iter_size it) <= p * nofnat (length combs) /\ p * nofnat (length combs) < nofnat (iter_size it) + n1)%num /\
         incl samples combs).
  Proof.
    intros FL combs p TS. assert (NE : length combs <> 0). { destruct combs; simpl in *; discriminate. }
    unfold iter_ctor. split; [|split].
    - intros ->. rewrite (proj2 (ok_eqb N OK n1 n1) eq_refl). eexists. split. reflexivity. simpl. auto.
    - intros Q. assert (E : neqb n1 p = false).
      { apply (neqb_false OK). intros <-. destruct Q as [Q|Q]. rewrite (nlt_0_1 OK) in Q. discriminate.
        exact (nlt_irr OK _ Q). }
      rewrite E. destruct Q as [Q|Q]; rewrite Q; auto. rewrite orb_true_r. auto.
    - intros P0 P1. assert (E : neqb n1 p = false). { apply (neqb_false OK). intros <-. exact (nlt_irr OK _ P1). }
      rewrite E, P0, (nlt_le OK _ _ P1). cbn [negb orb].
      set (size := floorf (p * nofnat (length combs))%num).
      destruct (length combs) as [|m] eqn:EL; [congruence|].
      rewrite (rmap_ok _ (fun k => rand k mod S m)) by auto. cbn [rbind].
      set (l := map (fun k => rand k mod S m) (seq 0 size)).
      assert (IN : forall i, In i l -> i < length combs).
      { intros i J. apply in_map_iff in J as (k & <- & _). rewrite EL. apply Nat.mod_upper_bound. auto. }
      exists (mkTI combs (Some l)), (map (fun i => nth i combs []) l). split; auto. split.
      { unfold iter_samples. simpl. apply rmap_ok. intros i J. unfold vget. rewrite (nth_error_nth' combs [] (IN i J)). auto. }
      assert (SZ : iter_size (mkTI combs (Some l)) = size). { unfold iter_size. simpl. unfold l. rewrite map_length, seq_length. auto. }
      split. { rewrite map_length. reflexivity. }
      rewrite SZ. split.
      + apply FL. apply (nmul_nonneg OK). apply (nlt_le OK); auto. apply (nofnat_nonneg OK).
      + intros c J. apply in_map_iff in J as (i & <- & Ji). apply nth_In. auto.
  Qed.
End Sub.
Print Assumptions C42_iterator.

(** {1 Weights} *)

Lemma nth_error_ext_len {T} (l l' : list T) : length l = length l' ->
  (forall i x, nth_error l i = Some x -> nth_error l' i = Some x) -> l = l'.
Proof.
  revert l'; induction l as [|a l IH]; intros [|b l'] L F; simpl in L; try discriminate; auto.
  pose proof (F 0 a eq_refl) as Q. injection Q as ->. f_equal. apply IH. congruence. intros i x E. apply (F (S i) x E).
Qed.

Section Weights.
  Context {N : num} (OK : num_ok N).
  Notation rst := (rst (N:=N)).
  Implicit Types s : rst.

  Definition nth_weight (l : list N) (k : nat) (w : N) : Prop := nth_error l k = Some w.

  Lemma get_weights_ok s : rinv s -> exists ws, get_weights s = Ok ws /\ length ws = length (tunable_clusters s) /\
    forall k c w, nth_error (tunable_clusters s) k = Some c -> nth_error ws k = Some w -> forall f, In f c -> f_exp (r_h s f) = Some w.
  Proof.
    intros I. unfold get_weights.
    destruct (rmap_exists (tuner_weight (r_h s)) (r_tuners s)) as (ws & E & F).
    { intros t J. assert (JC : In (map bt_fac (bases t)) (tunable_clusters s)) by (apply in_map_iff; eauto).
      pose proof (ri_ne _ I _ JC) as NE. pose proof (fun b => rinv_exp s t b I J) as X.
      unfold tuner_weight, exp_get_weight. destruct t as [b|[|b l]]; simpl in *; try congruence.
      - destruct (f_exp (r_h s (bt_fac b))) eqn:Q; eauto. exfalso. apply (X b); auto.
      - destruct (f_exp (r_h s (bt_fac b))) eqn:Q; eauto. exfalso. apply (X b); auto. }
    exists ws. split; auto. unfold tunable_clusters. rewrite map_length. split.
    { clear -F. induction F; simpl; congruence. }
    intros k c w Hc Hw f Jf. pose proof Hc as Hc'. rewrite nth_error_map in Hc. destruct (nth_error (r_tuners s) k) as [t|] eqn:Ht; [|discriminate].
    injection Hc as <-.
    assert (T : tuner_weight (r_h s) t = Ok w).
    { clear -F Ht Hw. revert k Ht Hw; induction F as [|t' w' ts ws E F IH]; intros [|k] Ht Hw; simpl in *; try discriminate.
      congruence. eauto. }
    assert (T0 : exists b, In b (bases t) /\ f_exp (r_h s (bt_fac b)) = Some w).
    { unfold tuner_weight, exp_get_weight in T. destruct t as [b|[|b l]]; try discriminate; exists b; split; try (left; auto; fail);
        destruct (f_exp (r_h s (bt_fac b))); congruence. }
    destruct T0 as (b & Jb & <-). apply (ri_eq _ I (map bt_fac (bases t))); auto.
    apply nth_error_In in Hc'. auto. apply in_map. auto.
  Qed.

  (** C37. In every state reached by a history of calls: there is one weight for each
      cluster of tunable factors, it is the weight of all the factors of the
      cluster; each tunable factor is in one cluster. *)
  Theorem C37_weights : forall h top s, (forall f, built (h f)) -> rreach h top any s ->
    exists ws, get_weights s = Ok ws /\ length ws = length (tunable_clusters s) /\
      (forall k c f, nth_error (tunable_clusters s) k = Some c -> In f c -> option_map Ok (nth_error ws k) = Some (exp_get_weight (r_h s f))) /\
      (forall c, In c (tunable_clusters s) -> c <> []) /\
      NoDup (concat (tunable_clusters s)).
  Proof.
    intros h top s Hb R. pose proof (rreach_inv h top any s Hb R) as I. destruct (get_weights_ok s I) as (ws & E & L & P).
    exists ws. splits; auto.
    - intros k c f Hc Jf. destruct (nth_error ws k) as [w|] eqn:Hw.
      + simpl. unfold exp_get_weight. rewrite (P k c w Hc Hw f Jf). auto.
      + exfalso. apply nth_error_None in Hw. assert (k < length (tunable_clusters s)) by (apply nth_error_Some; congruence). lia.
    - apply I.
    - apply I.
  Qed.

  (** C37. [setWeights] with a vector of the right size returns and [getWeights] gives
      that vector. The clusters, the variables, the evidences and the factors of the
      model are the same. The image of a combination by a factor of the k-th cluster
      is the exponential of the k-th weight multiplied by the value of the factor,
      which is not changed. The factors that are not tunable are not changed. *)
  Theorem C37_set_weights : forall h top s ws, (forall f, built (h f)) -> rreach h top any s ->
    length ws = length (tunable_clusters s) ->
    exists s', set_weights ws s = Ret tt s' /\ get_weights s' = Ok ws /\
      tunable_clusters s' = tunable_clusters s /\
      g_vars (r_g s') = g_vars (r_g s) /\ g_ev (r_g s') = g_ev (r_g s) /\ g_all (r_g s') = g_all (r_g s) /\
      (forall k c w f, nth_error (tunable_clusters s) k = Some c -> nth_error ws k = Some w -> In f c ->
         f_vars (r_h s' f) = f_vars (r_h s f) /\
         forall comb x, valid_comb (map vsize (f_vars (r_h s f))) comb -> f_find (r_h s f) comb = Ok x ->
           f_find (r_h s' f) comb = Ok x /\ f_findt (r_h s' f) comb = Ok (nexp (w * x)%num)) /\
      (forall f, ~ In f (concat (tunable_clusters s)) -> r_h s' f = r_h s f).
  Proof.
    intros h top s ws Hb R L. pose proof (rreach_inv h top any s Hb R) as I.
    assert (L' : length ws = length (r_tuners s)) by (rewrite L; unfold tunable_clusters; apply map_length).
    destruct (set_weights_ok s ws I L') as (h' & E & P1 & P2).
    pose proof (set_weights_step s ws I) as ST. rewrite E in ST. destruct ST as [I' _].
    set (s' := set_g (set_h s h') (reset_belief (r_g s))) in *.
    exists s'. split; auto. split; [|splits; auto].
    - destruct (get_weights_ok s' I') as (ws' & E' & LW & PW). rewrite E'. f_equal.
      change (tunable_clusters s') with (tunable_clusters s) in *.
      apply nth_error_ext_len; [congruence|]. intros k w Hw.
      destruct (nth_error (tunable_clusters s) k) as [c|] eqn:Hc.
      2:{ exfalso. apply nth_error_None in Hc. assert (k < length ws') by (apply nth_error_Some; congruence). lia. }
      destruct (nth_error ws k) as [w2|] eqn:Hw2.
      2:{ exfalso. apply nth_error_None in Hw2. assert (k < length ws') by (apply nth_error_Some; congruence). lia. }
      destruct c as [|f c]. { exfalso. apply nth_error_In in Hc. apply (ri_ne _ I) in Hc. congruence. }
      pose proof (PW k _ w Hc Hw f (or_introl eq_refl)) as Q. change (r_h s') with h' in Q.
      rewrite (P1 k _ w2 f Hc Hw2 (or_introl eq_refl)) in Q. simpl in Q. congruence.
    - intros k c w f Hc Hw J. split. { change (r_h s') with h'. rewrite (P1 k c w f) by auto. auto. }
      intros comb x V Hx. change (r_h s') with h' in *. pose proof (ri_built _ I f) as B. pose proof (ri_built _ I' f) as B'. change (r_h s') with h' in B'.
      rewrite (P1 k c w f) in * by auto. split; [exact Hx|].
      destruct (built_solid _ B) as ((W & _) & _). destruct (built_solid _ B') as ((W' & _) & _).
      rewrite f_find_ok in Hx by auto. injection Hx as <-. rewrite f_findt_ok by auto. reflexivity.
  Qed.

  (** C37. A vector of the wrong size is rejected and nothing is changed. *)
  Theorem C37_wrong_size : forall s ws, length ws <> length (tunable_clusters s) -> set_weights ws s = Thr s.
  Proof.
    intros s ws L. unfold set_weights. unfold tunable_clusters in L. rewrite map_length in L. apply Nat.eqb_neq in L. rewrite L. auto.
  Qed.

  (** C37. [set_ones] sets to one all the weights. *)
  Theorem C37_ones : forall h top s, (forall f, built (h f)) -> rreach h top any s ->
    exists s', set_all_ones s = Ret tt s' /\ get_weights s' = Ok (repeat n1 (length (tunable_clusters s))) /\
      tunable_clusters s' = tunable_clusters s.
  Proof.
    intros h top s Hb R. pose proof (rreach_inv h top any s Hb R) as I. destruct (get_weights_ok s I) as (ws & E & L & _).
    unfold set_all_ones. rewrite E. cbn [lift obind].
    assert (EQ : map (fun _ : N => n1 (n := N)) ws = repeat n1 (length (tunable_clusters s))).
    { rewrite <- L. clear. induction ws; simpl; congruence. }
    rewrite EQ.
    destruct (C37_set_weights h top s (repeat n1 (length (tunable_clusters s))) Hb R (repeat_length _ _)) as (s' & E1 & E2 & E3 & _).
    exists s'. auto.
  Qed.

  (** {1 Sharing groups} *)

  (** the set of variables of a factor is a given set *)
  Definition on_variables s (group : list var) f : Prop := Permutation (f_vars (r_h s f)) group.

  Lemma built_set_soup (f : func N) : built f -> Permutation (g_set (f_group f)) (f_vars f) /\ NoDup (map vkey (g_set (f_group f))).
  Proof.
    intros B. destruct (built_solid f B) as ((_ & WG) & _). destruct WG as [W1 W2]. split; auto.
    eapply Permutation_NoDup; [|exact W1]. symmetry. apply Permutation_map. auto.
  Qed.
  Lemma tunes_spec s group t : rinv s -> NoDup (map vkey group) ->
    (tunes (r_h s) group t = true <-> exists b, In b (bases t) /\ on_variables s group (bt_fac b)).
  Proof.
    intros I ND. unfold tunes. rewrite existsb_exists. split; intros (b & J & Q); exists b; split; auto.
    - destruct (built_set_soup _ (ri_built _ I (bt_fac b))) as [P1 N1]. apply vset_eqb_perm in Q; auto.
      unfold on_variables. rewrite <- P1. auto.
    - destruct (built_set_soup _ (ri_built _ I (bt_fac b))) as [P1 N1]. apply vset_eqb_perm; auto. rewrite P1. auto.
  Qed.

  (** a tunable factor of the model on a set of variables *)
  Definition known_group s (group : list var) : Prop := exists f, In f (concat (tunable_clusters s)) /\ on_variables s group f.

  (** C38. An insertion in an unknown sharing group never succeeds. When the factor
      itself can be inserted, the call throws but leaves the factor in the model: it
      is a factor of the model and a tunable factor, but in no cluster, hence it has
      no weight; the weights are those of before. *)
  Theorem C38_unknown_group : forall h top s f group, (forall f, built (h f)) -> rreach h top any s ->
    expo s f -> NoDup (map vkey group) -> ~ known_group s group ->
    (forall s', add_tunable (Some f) (Some group) s <> Ret tt s') /\
    (forall s1, add_tunable (Some f) None s = Ret tt s1 ->
       exists s', add_tunable (Some f) (Some group) s = Thr s' /\
         In f (g_all (r_g s')) /\ g_all (r_g s') = g_all (r_g s1) /\ g_vars (r_g s') = g_vars (r_g s1) /\
         r_tun s' = r_tun s ++ [f] /\ tunable_clusters s' = tunable_clusters s /\ get_weights s' = get_weights s).
  Proof.
    intros h top s f group Hb R X ND NK. pose proof (rreach_inv h top any s Hb R) as I.
    pose proof (on_g_add s (Some f) I) as Q. unfold add_tunable.
    destruct (on_g (fun g => add_distribution (r_h s) g (Some f)) s) as [[] s1|s1| | |]; cbn [obind];
      try (split; intros; discriminate).
    destruct Q as (ST & f' & EF & NI & Ea & Ev & ES). { intros k [= <-]. apply X. } injection EF as <-.
    destruct (make_tuner s1 f) as [t| | | |] eqn:ET; cbn [lift obind]; try (split; intros; discriminate).
    assert (FT : find_tuner (set_tun s1 (r_tun s1 ++ [f])) group = Throw).
    { unfold find_tuner. cbn [r_h r_tuners set_tun]. replace (r_h s1) with (r_h s) by (rewrite ES; auto).
      replace (r_tuners s1) with (r_tuners s) by (rewrite ES; auto).
      destruct (find_pos (tunes (r_h s) group) (r_tuners s)) as [i|] eqn:FP; auto. exfalso. apply NK.
      apply find_pos_some in FP as (t' & Ht & Pt & _). apply (tunes_spec s group t' I ND) in Pt as (b & Jb & OV).
      exists (bt_fac b). split; auto. apply in_concat. exists (map bt_fac (bases t')). split.
      apply in_map_iff. exists t'. split; auto. eapply nth_error_In; eauto. apply in_map; auto. }
    rewrite FT. cbn [lift obind]. split. { intros; discriminate. }
    intros s2 [= <-]. eexists. split. reflexivity. cbn [r_g set_tun set_tuners r_tun].
    splits; auto.
    - rewrite Ea. apply in_or_app. right; simpl; auto.
    - rewrite ES. auto.
    - rewrite ES. auto.
    - rewrite ES. auto.
  Qed.

  (** C38. When the insertion in a sharing group returns, the factor is in the first
      cluster with a factor on that set of variables, and takes its weight. Nothing
      else is changed in the clusters, in the weights and in the values. *)
  Theorem C38_known_group : forall h top s f group s', (forall f, built (h f)) -> rreach h top any s ->
    expo s f -> NoDup (map vkey group) ->
    add_tunable (Some f) (Some group) s = Ret tt s' ->
    exists pre c post w, tunable_clusters s = pre ++ c :: post /\
      (exists g, In g c /\ on_variables s group g) /\
      (forall d g, In d pre -> In g d -> ~ on_variables s group g) /\
      tunable_clusters s' = pre ++ (c ++ [f]) :: post /\
      exp_get_weight (r_h s' f) = Ok w /\
      (forall g, In g c -> exp_get_weight (r_h s g) = Ok w) /\
      get_weights s' = get_weights s /\
      g_all (r_g s') = g_all (r_g s) ++ [f] /\
      (forall g, g <> f -> f_vars (r_h s' g) = f_vars (r_h s g) /\ forall comb, f_find (r_h s' g) comb = f_find (r_h s g) comb /\ f_findt (r_h s' g) comb = f_findt (r_h s g) comb) /\
      (forall comb, f_find (r_h s' f) comb = f_find (r_h s f) comb).
  Proof.
    intros h top s f group s' Hb R X ND ADD. pose proof (rreach_inv h top any s Hb R) as I.
    pose proof (add_tunable_step s (Some f) (Some group) I) as ST'. rewrite ADD in ST'.
    destruct ST' as [I' _]. { intros k [= <-]; auto. }
    pose proof (on_g_add s (Some f) I) as Q. unfold add_tunable in ADD.
    destruct (on_g (fun g => add_distribution (r_h s) g (Some f)) s) as [[] s1|s1| | |]; cbn [obind] in ADD; try discriminate.
    destruct Q as ([I1 L1] & f' & EF & NI & Ea & Ev & ES). { intros k [= <-]. apply X. } injection EF as <-.
    destruct (make_tuner s1 f) as [t| | | |] eqn:ET; cbn [lift obind] in ADD; try discriminate.
    pose proof (make_tuner_fac _ _ _ ET) as Ef.
    set (s2 := set_tun s1 (r_tun s1 ++ [f])) in *.
    assert (HH : r_h s2 = r_h s) by (unfold s2; rewrite ES; auto).
    assert (HT : r_tuners s2 = r_tuners s) by (unfold s2; rewrite ES; auto).
    unfold find_tuner in ADD. rewrite HH, HT in ADD.
    destruct (find_pos (tunes (r_h s) group) (r_tuners s)) as [i|] eqn:FP; cbn [lift obind] in ADD; [|discriminate].
    apply find_pos_some in FP as (old & Ho & Po & Pf). unfold vget in ADD. rewrite HT, Ho in ADD. cbn [lift obind] in ADD.
    apply (tunes_spec s group old I ND) in Po as (b & Jb & OV).
    set (new := TComp (bases old ++ [t])) in *. destruct (lset_split _ _ new _ Ho) as (p & q & Ep & Li & El).
    assert (Cold : In (map bt_fac (bases old)) (tunable_clusters s)) by (apply in_map_iff; exists old; split; auto; eapply nth_error_In; eauto).
    assert (WS : exists w, tuner_weight (r_h (set_tuners s2 (lset (r_tuners s2) i new))) new = Ok w /\
               forall g, In g (map bt_fac (bases old)) -> f_exp (r_h s g) = Some w).
    { unfold new. cbn [tuner_weight]. destruct (bases old) as [|b0 bs] eqn:EB; [contradiction Jb|]. cbn [app r_h set_tuners]. rewrite HH.
      pose proof (ri_exp _ I (bt_fac b0)) as X0. unfold weight_of in X0. unfold exp_get_weight.
      destruct (f_exp (r_h s (bt_fac b0))) as [w|] eqn:E0.
      - exists w. split; auto. intros g J. rewrite <- E0. apply (ri_eq _ I (map bt_fac (b0 :: bs))); auto. left; auto.
      - exfalso. apply X0; auto. apply in_concat. eexists. split. exact Cold. left; auto. }
    destruct WS as (w & TW & CW). rewrite HT in *. rewrite TW in ADD. cbn [lift obind] in ADD.
    assert (XB : forall b', In b' (bases old) -> f_exp (r_h s (bt_fac b')) <> None).
    { intros b' J. rewrite CW by (apply in_map; auto). discriminate. }
    destruct (tuner_set_weight_ok w new (set_tuners s2 (lset (r_tuners s) i new))) as (h' & EW & W1 & W2).
    { intros b' J. cbn [r_h set_tuners]. rewrite HH. unfold new in J. cbn [bases] in J. apply in_app_or in J as [J|[<-|[]]]; auto.
      rewrite Ef. apply X. }
    rewrite EW in ADD. injection ADD as <-. cbn [r_h set_tuners] in W1, W2. rewrite HH in W1, W2. unfold new in W1, W2. cbn [bases] in W1, W2.
    rewrite map_app in W1, W2. cbn [map] in W1, W2. rewrite Ef in W1, W2.
    assert (NF : ~ In f (concat (tunable_clusters s))).
    { intros J. apply NI. apply (ri_in _ I). apply in_or_app. right. apply (ri_tun _ I); auto. }
    assert (NFo : ~ In f (map bt_fac (bases old))). { intros J. apply NF. apply in_concat. eauto. }
    assert (KEEP : forall g, g <> f -> h' g = r_h s g \/ h' g = mkFunc (f_group (r_h s g)) (f_info (r_h s g)) (f_data (r_h s g)) (f_exp (r_h s g))).
    { intros g NE. destruct (in_dec Nat.eq_dec g (map bt_fac (bases old) ++ [f])) as [J|J].
      - right. rewrite W1 by auto. apply in_app_or in J as [J|[J|[]]]; [|congruence]. rewrite (CW g J). auto.
      - left. apply W2. auto. }
    exists (map (fun t => map bt_fac (bases t)) p), (map bt_fac (bases old)), (map (fun t => map bt_fac (bases t)) q), w.
    assert (ECs : tunable_clusters s = map (fun t => map bt_fac (bases t)) p ++ map bt_fac (bases old) :: map (fun t => map bt_fac (bases t)) q).
    { unfold tunable_clusters. rewrite Ep, map_app. auto. }
    set (s' := set_h (set_tuners s2 (lset (r_tuners s) i new)) h') in *.
    assert (ECs' : tunable_clusters s' = map (fun t => map bt_fac (bases t)) p ++ (map bt_fac (bases old) ++ [f]) :: map (fun t => map bt_fac (bases t)) q).
    { unfold tunable_clusters, s'. cbn [r_tuners set_h set_tuners]. rewrite El, map_app. cbn [map]. unfold new. cbn [bases]. rewrite map_app. cbn [map].
      rewrite Ef. auto. }
    assert (FIN : forall g, In g (map bt_fac (bases old) ++ [f]) -> f_exp (h' g) = Some w) by (intros g J; rewrite W1 by auto; auto).
    split; auto. split. { exists (bt_fac b). split; auto. apply in_map; auto. }
    split.
    { intros d g Jd Jg OVg. apply in_map_iff in Jd as (t' & <- & Jt). apply In_nth_error in Jt as (j & Hj).
      assert (Lj : j < i) by (rewrite <- Li; apply nth_error_Some; congruence).
      assert (Hj' : nth_error (r_tuners s) j = Some t'). { rewrite Ep, nth_error_app1 by lia. auto. }
      pose proof (Pf j t' Lj Hj') as Q. apply in_map_iff in Jg as (b' & <- & Jb').
      assert (tunes (r_h s) group t' = true) by (apply (tunes_spec s group t' I ND); eauto). congruence. }
    split; auto. split. { unfold exp_get_weight. change (r_h s') with h'. rewrite FIN; auto. apply in_or_app; right; simpl; auto. }
    split. { intros g J. unfold exp_get_weight. rewrite (CW g J). auto. }
    split.
    { destruct (get_weights_ok s I) as (ws & E1 & LW1 & P1). destruct (get_weights_ok s' I') as (ws' & E2 & LW2 & P2).
      rewrite E1, E2. f_equal. rewrite ECs in LW1. rewrite ECs' in LW2. rewrite app_length in LW1, LW2. cbn [length] in LW1, LW2.
      apply nth_error_ext_len; [congruence|]. intros k x Hx.
      destruct (nth_error ws k) as [y|] eqn:Hy. 2:{ exfalso. apply nth_error_None in Hy. assert (k < length ws') by (apply nth_error_Some; congruence). lia. }
      f_equal. set (mp := fun t => map bt_fac (bases t)) in *.
      assert (G : exists c c' g, nth_error (tunable_clusters s) k = Some c /\ nth_error (tunable_clusters s') k = Some c' /\ In g c /\ In g c' /\ g <> f).
      { assert (Lk : k < length (tunable_clusters s)). { rewrite ECs, app_length. cbn [length]. rewrite <- LW1. apply nth_error_Some. congruence. }
        destruct (nth_error (tunable_clusters s) k) as [c|] eqn:Hc. 2:{ exfalso. apply nth_error_None in Hc. lia. }
        assert (Jc : In c (tunable_clusters s)) by (eapply nth_error_In; eauto).
        destruct c as [|g c]. { exfalso. apply (ri_ne _ I) in Jc. congruence. }
        assert (NE : g <> f). { intros ->. apply NF. apply in_concat. exists (f :: c). split; auto. left; auto. }
        rewrite ECs in Hc. rewrite ECs'. destruct (Nat.lt_total k (length (map mp p))) as [Lt|[Eq|Gt]].
        - rewrite nth_error_app1 in Hc by auto. exists (g :: c), (g :: c), g. rewrite nth_error_app1 by auto. splits; auto; left; auto.
        - rewrite nth_error_app2 in Hc by lia. rewrite nth_error_app2 by lia. replace (k - length (map mp p)) with 0 in * by lia.
          simpl in Hc. injection Hc as Hc. exists (g :: c), (map bt_fac (bases old) ++ [f]), g. simpl. rewrite Hc. splits; auto; left; auto.
        - rewrite nth_error_app2 in Hc by lia. rewrite nth_error_app2 by lia. destruct (k - length (map mp p)) as [|k'] eqn:Ek; [lia|].
          simpl in *. exists (g :: c), (g :: c), g. splits; auto; left; auto. }
      destruct G as (c & c' & g & Hc & Hc' & J & J' & NE). pose proof (P1 k c y Hc Hy g J) as Q1. pose proof (P2 k c' x Hc' Hx g J') as Q2.
      change (r_h s') with h' in Q2. destruct (KEEP g NE) as [K|K]; rewrite K in Q2; simpl in Q2; congruence. }
    split. { rewrite <- Ea. reflexivity. }
    change (r_h s') with h'. split.
    - intros g NE. destruct (KEEP g NE) as [K|K]; rewrite K; auto.
    - intros comb. rewrite W1 by (apply in_or_app; right; simpl; auto). reflexivity.
  Qed.
End Weights.
Print Assumptions C37_weights.
Print Assumptions C37_set_weights.
Print Assumptions C37_wrong_size.
Print Assumptions C37_ones.
Print Assumptions C38_unknown_group.
Print Assumptions C38_known_group.

(** {1 Examples} *)

(** two clusters: the factors on A, B and on C, A; the factor on A alone *)
Definition ex_train : list (rop (N:=QcNum)) :=
  [RTun (Some 2) None; RTun (Some 0) None; RConst (Some 5); RTun (Some 16) (Some [exA; exB]); RGraph (OSet exA 1)].
Notation ex_train_state := (rruns (r_empty trH 18) ex_train).
Lemma ex_train_reach : rreach trH 18 any ex_train_state.
Proof. apply rruns_reach. exact (fun _ _ => Logic.I). constructor. vm_compute. reflexivity. Qed.

Example C37_example :
  (match get_weights ex_train_state with Ok [a; b] => neqb a (q 2 1) && neqb b (q 2 1) | _ => false end) = true /\
  tunable_clusters ex_train_state = [[2; 16]; [0]] /\
  (match set_weights [q 3 1; q 1 2] ex_train_state with
   | Ret _ s' => match get_weights s' with Ok [a; b] => neqb a (q 3 1) && neqb b (q 1 2) | _ => false end
   | _ => false end) = true /\
  rthrew (set_weights [q 3 1] ex_train_state) = true.
Proof. split; [|split; [|split]]; vm_compute; reflexivity. Qed.

(** C38. The statement of the property does not hold: the call throws, but the
    factor is now in the model, and takes part in the distribution without a
    weight in [getWeights]. *)
Theorem C38_failed_insertion_refuted : exists (h : nat -> func QcNum) top s f group s',
  (forall f, built (h f)) /\ rreach h top any s /\ expo s f /\ NoDup (map vkey group) /\ ~ known_group s group /\
  add_tunable (Some f) (Some group) s = Thr s' /\
  ~ In f (g_all (r_g s)) /\ In f (g_all (r_g s')) /\ tunable_clusters s' = tunable_clusters s.
Proof.
  exists trH, 18, ex_train_state, 6, [exD], (rafter ex_train_state (add_tunable (Some 6) (Some [exD]) ex_train_state)).
  split; [exact trH_built|]. split; [exact ex_train_reach|].
  split. { split. apply Nat.ltb_lt. vm_compute. reflexivity. assert (Q : match f_exp (r_h ex_train_state 6) with Some _ => true | None => false end = true) by (vm_compute; reflexivity).
    destruct (f_exp (r_h ex_train_state 6)); discriminate. }
  split. { repeat constructor. simpl. tauto. }
  split.
  { assert (Q : forallb (fun f => negb (length (f_vars (r_h ex_train_state f)) =? 1) || negb (forallb (fun v => var_peqb v exD) (f_vars (r_h ex_train_state f))))
        (concat (tunable_clusters ex_train_state)) = true) by (vm_compute; reflexivity).
    intros (f & J & P). unfold on_variables in P. rewrite forallb_forall in Q. apply Q in J. clear Q.
    apply Permutation_sym, Permutation_length_1_inv in P. rewrite P in J. discriminate J. }
  split. { assert (Q : rthrew (add_tunable (Some 6) (Some [exD]) ex_train_state) = true) by (vm_compute; reflexivity).
    destruct (add_tunable (Some 6) (Some [exD]) ex_train_state) eqn:E; try discriminate Q. reflexivity. }
  split. { intros J. assert (Q : mem 6 (g_all (r_g ex_train_state)) = false) by (vm_compute; reflexivity). apply mem_false in Q. contradiction. }
  split. { assert (Q : mem 6 (g_all (r_g (rafter ex_train_state (add_tunable (Some 6) (Some [exD]) ex_train_state)))) = true) by (vm_compute; reflexivity).
    exact (proj1 (mem_In _ _) Q). }
  vm_compute. reflexivity.
Qed.
Print Assumptions C38_failed_insertion_refuted.

(** the hypotheses of [C38_unknown_group] and [C38_known_group] are met *)
Example C38_example :
  rdone (add_tunable (Some 6) None ex_train_state) && negb (rthrew (add_tunable (Some 6) None ex_train_state)) = true /\
  (match add_tunable (Some 6) (Some [exA]) ex_train_state with
   | Ret _ s' => match tunable_clusters s' with [[2; 16]; [0; 6]] => true | _ => false end | _ => false end) = true.
Proof. split; vm_compute; reflexivity. Qed.
