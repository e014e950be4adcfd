(** Answers of the queries along the histories *)
From Coq Require Import String List Arith Bool Lia Permutation Relations Field.
From Verif Require Import Res Num Categoric Func FuncProofs GroupProofs FactorProofs FactorApi Special SpecialProofs
  Graph GraphLemmas Clusters Belief Query GraphInv EvidInv BeliefInv BigOp Tree Cycle BPStep BPRun GraphSpec Hist P_Graph BeliefSpec Sums Exact BeliefHist.
Import ListNotations.
Open Scope nat_scope.

Lemma nth_map_seq {T} (f : nat -> T) n i d : i < n -> nth i (map f (seq 0 n)) d = f i.
Proof. intros L. rewrite (nth_indep _ d (f 0)) by (rewrite map_length, seq_length; auto). rewrite map_nth, seq_nth; auto. Qed.

Section Maxima.
  Context {N : num} (OK : num_ok N).
  Add Field NFieldMax : (ok_field N OK).

  Lemma bigL_map_le {T} (f : T -> N) l a : In a l -> (f a <= bigL MAP f l)%num.
  Proof.
    induction l as [|b l IH]; simpl; intros I. contradiction. destruct I as [->|I].
    - apply (nmax_le_l OK).
    - eapply (nle_trans OK). apply IH; auto. apply (nmax_le_r OK).
  Qed.
  Lemma bigL_map_hit {T} (f : T -> N) l : (n0 < bigL MAP f l)%num -> exists a, In a l /\ f a = bigL MAP f l.
  Proof.
    induction l as [|b l IH]; simpl; intros P. exfalso; eapply (nlt_irr OK); eauto.
    change (red_update MAP (f b) (bigL MAP f l)) with (nmax (f b) (bigL MAP f l)) in *.
    destruct (nmax_cases (f b) (bigL MAP f l)) as [Q|Q]; rewrite Q in *.
    - exists b. auto.
    - destruct (IH P) as (a & I & E). exists a. auto.
  Qed.
  Lemma bigL_map_lub {T} (f : T -> N) l c : (n0 <= c)%num -> (forall a, In a l -> (f a <= c)%num) -> (bigL MAP f l <= c)%num.
  Proof. intros P. induction l as [|b l IH]; simpl; intros Q; auto. apply (nmax_lub (N:=N)); auto. Qed.

  Lemma find_max_loop_ok (l : list N) : forall k m r pre, length pre = k -> r < k -> nth r pre n0 = m ->
    (forall i, i < k -> (nth i pre n0 <= m)%num) -> (forall i, i < r -> (nth i pre n0 < m)%num) ->
    let j := find_max_loop l k m r in j < k + length l /\
      (forall i, i < k + length l -> (nth i (pre ++ l) n0 <= nth j (pre ++ l) n0)%num) /\
      (forall i, i < j -> (nth i (pre ++ l) n0 < nth j (pre ++ l) n0)%num).
  Proof.
    induction l as [|x l IH]; intros k m r pre L Lr Em LE LT; simpl.
    - rewrite app_nil_r, Nat.add_0_r, Em. splits; auto.
    - assert (EQ : pre ++ x :: l = (pre ++ [x]) ++ l) by (rewrite <- app_assoc; auto). rewrite EQ.
      replace (k + S (length l)) with (S k + length l) by lia.
      assert (P1 : forall i, i < k -> nth i (pre ++ [x]) n0 = nth i pre n0) by (intros i Li; apply app_nth1; lia).
      assert (P2 : nth k (pre ++ [x]) n0 = x) by (rewrite app_nth2, <- L, Nat.sub_diag by lia; auto).
      destruct (nltb m x) eqn:Q.
      + apply IH; auto. rewrite app_length. simpl; lia.
        * intros i Li. assert (Ci : i < k \/ i = k) by lia. destruct Ci as [Ci| ->]; [|rewrite P2; apply (nle_refl OK)]. rewrite P1 by auto.
          eapply (nle_trans OK). apply LE; auto. apply (nlt_le OK); auto.
        * intros i Li. rewrite P1 by auto. eapply (nle_lt_trans OK). apply LE; auto. auto.
      + apply IH; auto. rewrite app_length. simpl; lia. rewrite P1; auto.
        * intros i Li. assert (Ci : i < k \/ i = k) by lia. destruct Ci as [Ci| ->]; [|rewrite P2; auto]. rewrite P1 by auto. auto.
        * intros i Li. rewrite P1 by lia. auto.
  Qed.
  Lemma find_max_ok (l : list N) : l <> [] -> exists j, find_max l = Ok j /\ j < length l /\
    (forall i, i < length l -> (nth i l n0 <= nth j l n0)%num) /\ (forall i, i < j -> (nth i l n0 < nth j l n0)%num).
  Proof.
    destruct l as [|x l]; [congruence|]. intros _. simpl find_max. eexists. split; [reflexivity|].
    apply (find_max_loop_ok l 1 x 0 [x]); auto.
    - intros [|i] Li; [apply (nle_refl OK)|lia].
    - intros i Li. lia.
  Qed.
End Maxima.

Section Queries.
  Context {N : num} (OK : num_ok N).
  Add Field NFieldQueries : (ok_field N OK).
  Variable H : nat -> func N.
  Hypothesis HG : goods H.
  Notation gst := (gst (N:=N)).
  Implicit Types s : gst.
  Notation core := (core H).
  Notation W := (weight_swapped H).

  Lemma spec_val s A x a v : core s (g_all s) -> abs s A -> In x (all_asg (sp_vars A)) -> var_at s a v -> val x v < vsize v.
  Proof.
    intros C AB Ix Ha. rewrite <- (ab_vars _ _ AB) in Ix. destruct (asg_range s x Ix) as (y & -> & R). rewrite (val_asg H s C y a v Ha).
    rewrite <- (szn_at _ _ _ Ha). apply R. eapply var_at_lt; eauto.
  Qed.
  Lemma total_split s A k (w : asg -> N) v a : core s (g_all s) -> abs s A -> var_at s a v -> (forall x, In x (all_asg (sp_vars A)) -> (n0 <= w x)%num) ->
    bigL k (fun j => total A k w (takes v j)) (seq 0 (vsize v)) = total A k w (fun _ => true).
  Proof.
    intros C AB Ha NN. unfold total. rewrite (bigL_swap OK). apply bigL_ext. intros x Ix.
    pose proof (spec_val s A x a v C AB Ix Ha) as L. rewrite andb_true_r. destruct (agrees A x); simpl.
    - rewrite (bigL_one OK k _ (vsize v) (val x v)); auto.
      + unfold takes. rewrite Nat.eqb_refl. auto.
      + unfold takes. rewrite Nat.eqb_refl. auto.
      + intros i Li Ni. unfold takes. rewrite (proj2 (Nat.eqb_neq (val x v) i)); auto.
    - apply (bigL_0 OK). auto.
  Qed.
  Lemma w_spec_nonneg s A x : core s (g_all s) -> evened s -> abs s A -> In x (all_asg (sp_vars A)) -> (n0 <= W A x)%num.
  Proof.
    intros C EV AB Ix. rewrite <- (ab_vars _ _ AB) in Ix. destruct (asg_range s x Ix) as (y & -> & R).
    apply (w_nonneg OK H HG s A C EV AB); auto.
  Qed.

  (** {1 The marginals of the hidden variables} *)
  Definition distribution (v : var) (l : list N) : Prop :=
    length l = vsize v /\ (forall p, In p l -> (n0 <= p)%num) /\ sumL (fun p => p) l = n1.

  Lemma evidence_keeps s s' : keeps H s s' -> forall a, g_ev s' a = g_ev s a.
  Proof. intros K a. rewrite (kp_ev _ _ _ K). auto. Qed.

  Theorem ready_hidden A k s r a v : ready H A k s r -> var_at s a v -> g_ev s a = None ->
    exists l, distribution v l /\ (forall e, env_ok e -> (let* m := incoming e s a in get_probabilities m) = Ok l) /\
      (tree_around H A v -> (k = MAP -> balanced H A /\ above_floor H A) ->
        l = map (fun j => total A k (W A) (takes v j) / sumL (fun j => total A k (W A) (takes v j)) (seq 0 (vsize v)))%num (seq 0 (vsize v)) /\
        (n0 < sumL (fun j => total A k (W A) (takes v j)) (seq 0 (vsize v)))%num).
  Proof.
    intros (Ek & s0 & x & ls & [C0 CL0 EV0 AB XR XO XP LS] & ST & F) Ha Ea. pose proof ST as [K MG].
    assert (Ha0 : var_at s0 a v) by (unfold var_at in *; rewrite <- (kp_vars _ _ _ K); auto).
    assert (Ea0 : g_ev s0 a = None) by (rewrite <- (kp_ev _ _ _ K); auto).
    assert (Ih : In a (hid s0)) by (apply hid_In; split; auto; eapply var_at_lt; eauto).
    assert (IC : In a (concat ls)) by (eapply Permutation_in; [symmetry; apply (cp_perm _ _ _ LS)|auto]).
    apply in_concat in IC as (S & IS & Ia). apply In_nth_error in IS as [i Hi].
    pose proof (Forall2_nth _ _ _ F i) as Q. rewrite Hi in Q. destruct (nth_error (pr_structs r) i) as [f|]; [|contradiction]. destruct Q as [CD _].
    set (g := fun j => (uw H s0 a j * prodL (fun z => mval s z a j) (nbs s0 a))%num).
    exists (map (fun j => g j / sumL g (seq 0 (vsize v)))%num (seq 0 (vsize v))).
    assert (GP : forall e, env_ok e -> (let* m := incoming e s a in get_probabilities m) = Ok (map (fun j => g j / sumL g (seq 0 (vsize v)))%num (seq 0 (vsize v))) /\
      distribution v (map (fun j => g j / sumL g (seq 0 (vsize v)))%num (seq 0 (vsize v)))).
    { intros e E. destruct (incoming_ok OK H HG s0 A C0 CL0 EV0 AB x XR XO XP ls LS e k a v i S s (fst f) E Hi Ia Ha0 CD ST) as (m & c & Em & Um & Pc & Vm & (j1 & Lj1 & Ej1)).
      rewrite Em. cbn [rbind]. rewrite (get_probabilities_ok OK m) by apply Um. rewrite (unary_fsizes v m Um), all_combs_1.
      cbv zeta. rewrite sumL_map, map_map.
      assert (E1 : sumL (fun j => fval m [j]) (seq 0 (vsize v)) = (c * sumL g (seq 0 (vsize v)))%num).
      { rewrite <- (sumL_mul_l OK). apply sumL_ext. intros j Ij. apply in_seq in Ij. change (fval m [j]) with (uval m j). apply Vm. lia. }
      assert (PS : (n0 < c * sumL g (seq 0 (vsize v)))%num).
      { rewrite <- E1. apply (bigL_pos OK SUM (fun j => fval m [j]) (seq 0 (vsize v)) j1).
        - intros b Ib. apply in_seq in Ib. apply Vm. lia.
        - apply in_seq. lia.
        - change (fval m [j1]) with (uval m j1). rewrite Ej1. apply nlt_0_1; auto. }
      rewrite E1. rewrite (proj2 (neqb_false OK _ _) (nlt_neq' OK _ _ PS)).
      assert (GN : forall j, j < vsize v -> (n0 <= g j)%num).
      { intros j Lj. destruct (Vm j Lj) as [V1 V2]. unfold g. rewrite V1 in V2. apply nle_lt_eq in V2; auto. apply nle_lt_eq; auto. destruct V2 as [V2|V2].
        - left. destruct (nltb n0 (uw H s0 a j * prodL (fun z => mval s z a j) (nbs s0 a))%num) eqn:Z; auto. exfalso.
          pose proof (nmul_le_l OK c _ _ (nlt_le OK _ _ Pc) Z) as Z2. replace (c * n0)%num with (n0 : N) in Z2 by ring. rewrite V2 in Z2. discriminate.
        - right. symmetry in V2. apply (nmul_0 OK) in V2 as [V2|V2]; auto. exfalso. rewrite V2 in Pc. eapply (nlt_irr OK); eauto. }
      assert (GS : (n0 < sumL g (seq 0 (vsize v)))%num).
      { apply (nmul_pos_inv OK c); auto. apply (nlt_le OK); auto. apply (sumL_nonneg OK). intros j Ij. apply in_seq in Ij. apply GN. lia. }
      split.
      - f_equal. apply map_ext_in. intros j Ij. apply in_seq in Ij. change (fval m [j]) with (uval m j). rewrite (proj1 (Vm j ltac:(lia))). unfold g at 2.
        field. split; apply (nlt_neq' OK); auto.
      - split; [rewrite map_length, seq_length; auto|]. split.
        + intros p Ip. apply in_map_iff in Ip as (j & <- & Ij). apply in_seq in Ij. apply (ndiv_nonneg OK); auto. apply GN. lia.
        + rewrite sumL_map. rewrite (sumL_div OK). field. apply (nlt_neq' OK); auto. apply (nlt_neq' OK); auto. }
    split; [|split].
    - apply (GP env_id). apply env_id_ok.
    - intros e E. apply GP; auto.
    - intros T FLc. destruct (marginal_node OK H HG s0 A C0 CL0 EV0 AB x XR XO XP ls LS env_id k a v i S s (fst f)) as [Q1 Q2]; auto.
      + apply env_id_ok.
      + apply (cd_shape _ _ _ _ _ _ CD). apply (tree_at H s0 A C0 AB CL0 ls S a v); auto. eapply nth_error_In; eauto.
      + destruct k. left; auto. destruct (FLc eq_refl). apply (above_floored H s0 A); auto.
      + split; auto. rewrite (proj1 (GP env_id env_id_ok)) in Q1. injection Q1; auto.
  Qed.

  (** {1 States between the calls} *)
  Record usable A s : Prop := {
    us_inv : inv H s;
    us_abs : abs s A;
    us_clean : clean s;
    us_calib : calib H A s
  }.
  Theorem reach_usable ops s : reach H (proper_use H) ops s -> usable (sp_run (fvars H) ops) s.
  Proof.
    intros R.
    assert (G1 : forall A op, proper_use H A op -> no_failed_removal A op) by (intros A op (G & _); auto).
    assert (G2 : forall A op, proper_use H A op -> no_failed_removal A op /\ separated_removal (fvars H) A op) by (intros A op (G & G' & _); auto).
    destruct (reach_abs H HG _ ops s G1 R) as [I AB]. constructor; auto. eapply (reach_clean H HG); eauto. eapply reach_calib; eauto.
  Qed.

  Definition at_rest k s : Prop := exists r, g_last s = Some r /\ pr_kind r = k.
  Lemma at_rest_check e k n s : at_rest k s -> check_propagation H e k n s = Ret tt s.
  Proof. intros (r & E & K). unfold check_propagation, would_need. rewrite E, K. destruct k; reflexivity. Qed.

  Lemma check_usable A e k n s : usable A s -> env_ok e -> 1 <= n -> balanced H A -> positive (W A) A ->
    exists s' r, check_propagation H e k n s = Ret tt s' /\ usable A s' /\ g_last s' = Some r /\ ready H A k s' r /\ keeps H s s'.
  Proof.
    intros [I AB CL CA] E Ln B P. destruct (check_ok OK H HG A e k n s I AB CL CA E Ln B P) as (s' & r & Q & El & R & K & PO).
    exists s', r. split; [auto|]. split; [|auto]. constructor.
    - eapply keeps_inv; eauto.
    - eapply keeps_abs; eauto.
    - eapply keeps_clean; eauto.
    - eapply calib_of; eauto.
  Qed.
  Lemma ready_rest A k s r : g_last s = Some r -> ready H A k s r -> at_rest k s.
  Proof. intros El [E _]. exists r. auto. Qed.

  Lemma known_at A s v : abs s A -> In v (sp_vars A) -> exists a, var_at s a v.
  Proof. intros AB I. rewrite <- (ab_vars _ _ AB) in I. apply In_nth_error in I as [a Ha]. exists a; auto. Qed.

  (** the marginals of a hidden variable *)
  Theorem marginal_hidden A e k n s v : usable A s -> env_ok e -> 1 <= n -> balanced H A -> positive (W A) A -> hidden A v ->
    exists l s', usable A s' /\ keeps H s s' /\ at_rest k s' /\ distribution v l /\ marginal_query H e k v n s = Ret l s' /\
      (forall e' n', env_ok e' -> marginal_query H e' k v n' s' = Ret l s') /\
      (tree_around H A v -> (k = MAP -> above_floor H A) ->
        l = map (fun j => total A k (W A) (takes v j) / sumL (fun j => total A k (W A) (takes v j)) (seq 0 (vsize v)))%num (seq 0 (vsize v)) /\
        (n0 < sumL (fun j => total A k (W A) (takes v j)) (seq 0 (vsize v)))%num).
  Proof.
    intros U E Ln B P [Iv Hv]. destruct (check_usable A e k n s U E Ln B P) as (s' & r & Q & U' & El & RD & K).
    pose proof U' as [[C' CS'] AB' CL' _]. destruct (known_at A s' v AB' Iv) as [a Ha].
    assert (Ea : g_ev s' a = None) by (rewrite <- (ev_at s' A AB' a v Ha); auto).
    destruct (ready_hidden A k s' r a v RD Ha Ea) as (l & D & EQ & T).
    assert (LC : exists i, locate s' v = Some (a, LCl i)).
    { unfold locate. rewrite (proj2 (find_node_spec s' v a (co_vars _ _ _ C'))) by eauto. rewrite Ea. destruct (find_pos _ _); eauto. }
    destruct LC as [i LC].
    exists l, s'. splits; auto.
    - eapply ready_rest; eauto.
    - unfold marginal_query. rewrite Q. cbn [obind]. rewrite LC. simpl marginal_at. rewrite EQ by auto. auto.
    - intros e' n' E'. unfold marginal_query. rewrite (at_rest_check e' k n' s') by (eapply ready_rest; eauto). cbn [obind]. rewrite LC. simpl marginal_at. rewrite EQ by auto. auto.
  Qed.

  Lemma hot_ok n k : k < n -> vset (repeat (n0 : N) n) k n1 = Ok (map (fun j => if j =? k then n1 else n0) (seq 0 n)).
  Proof.
    intros L. rewrite vset_ok by (rewrite repeat_length; auto). f_equal. revert k L. induction n as [|n IH]; intros k L; [lia|].
    simpl. destruct k as [|k]; simpl.
    - f_equal. rewrite <- seq_shift, map_map. simpl. clear. generalize 0. induction n as [|n IH]; intros m; simpl; auto. f_equal. apply IH.
    - f_equal. rewrite IH by lia. rewrite <- seq_shift, map_map. auto.
  Qed.

  (** the marginals of an observed variable *)
  Theorem marginal_observed A e k n s v o : usable A s -> env_ok e -> 1 <= n -> balanced H A -> positive (W A) A ->
    In v (sp_vars A) -> sp_evidence A v = Some o ->
    exists s', usable A s' /\ keeps H s s' /\ at_rest k s' /\ o < vsize v /\
      forall e' n', env_ok e' -> marginal_query H e' k v n' s' = Ret (map (fun j => if Nat.eqb j o then n1 else n0) (seq 0 (vsize v))) s' /\
      marginal_query H e k v n s = marginal_query H e' k v n' s'.
  Proof.
    intros U E Ln B P Iv Hv. destruct (check_usable A e k n s U E Ln B P) as (s' & r & Q & U' & El & RD & K).
    pose proof U' as [[C' CS'] AB' CL' _]. destruct (known_at A s' v AB' Iv) as [a Ha].
    assert (Ea : g_ev s' a = Some o) by (rewrite <- (ev_at s' A AB' a v Ha); auto).
    assert (Lo : o < vsize v). { destruct (co_ev _ _ _ C' a o Ea) as (w & Hw & Lo). rewrite (var_at_fun _ _ _ _ Ha Hw). auto. }
    assert (LC : locate s' v = Some (a, LEv o)).
    { unfold locate. rewrite (proj2 (find_node_spec s' v a (co_vars _ _ _ C'))) by eauto. rewrite Ea. auto. }
    assert (MQ : forall e' n', marginal_query H e' k v n' s' = Ret (map (fun j => if Nat.eqb j o then n1 else n0) (seq 0 (vsize v))) s').
    { intros e' n'. unfold marginal_query. rewrite (at_rest_check e' k n' s') by (eapply ready_rest; eauto). cbn [obind]. rewrite LC. simpl marginal_at.
      unfold node_var, vget. unfold var_at in Ha. rewrite Ha. cbn [rbind]. rewrite hot_ok; auto. }
    exists s'. splits; auto. eapply ready_rest; eauto. intros e' n' E'. split; auto.
    unfold marginal_query. rewrite Q, (at_rest_check e' k n' s') by (eapply ready_rest; eauto). cbn [obind]. rewrite LC. auto.
  Qed.

  (** {1 Maxima} *)
  Definition best (w : asg -> N) A v j : Prop :=
    (exists x, most_probable w A x /\ val x v = j) /\ forall x, most_probable w A x -> j <= val x v.

  Lemma best_found A s v a l : core s (g_all s) -> evened s -> abs s A -> var_at s a v ->
    l = map (fun j => total A MAP (W A) (takes v j) / sumL (fun j => total A MAP (W A) (takes v j)) (seq 0 (vsize v)))%num (seq 0 (vsize v)) ->
    (n0 < sumL (fun j => total A MAP (W A) (takes v j)) (seq 0 (vsize v)))%num ->
    exists j, find_max l = Ok j /\ best (W A) A v j.
  Proof.
    intros C EV AB Ha El PS. set (T := fun j => total A MAP (W A) (takes v j)) in *. set (D := sumL T (seq 0 (vsize v))) in *.
    assert (NN : forall x, In x (all_asg (sp_vars A)) -> (n0 <= W A x)%num) by (intros x; apply (w_spec_nonneg s); auto).
    assert (TN : forall j, (n0 <= T j)%num).
    { intros j. unfold T, total. apply (bigL_nonneg OK). intros x Ix. destruct (_ && _); auto. apply (nle_refl OK). }
    destruct (sumL_pos_inv OK T (seq 0 (vsize v)) (fun j _ => TN j) PS) as (i0 & Ii0 & Pi0).
    assert (LL : length l = vsize v) by (rewrite El, map_length, seq_length; auto).
    destruct (find_max_ok OK l) as (j & Ej & Lj & MX & FS). { intros Z. rewrite Z in LL. apply in_seq in Ii0. simpl in LL. lia. }
    exists j. split; auto. rewrite LL in *.
    assert (NT : forall i, i < vsize v -> nth i l n0 = (T i / D)%num).
    { intros i Li. rewrite El. apply (nth_map_seq (fun j => (T j / D)%num)); auto. }
    assert (BACK : forall x : N, (D * (x / D) = x)%num) by (intros x; field; apply (nlt_neq' OK); auto).
    assert (TL : forall i, i < vsize v -> (T i <= T j)%num).
    { intros i Li. specialize (MX i Li). rewrite !NT in MX by auto. rewrite <- (BACK (T i)), <- (BACK (T j)). apply (nmul_le_l OK); auto. apply (nlt_le OK); auto. }
    assert (TF : forall i, i < j -> (T i < T j)%num).
    { intros i Li. specialize (FS i Li). rewrite !NT in FS by lia. rewrite <- (BACK (T i)), <- (BACK (T j)). apply (nmul_lt_l OK); auto. }
    assert (TM : T j = total A MAP (W A) (fun _ => true)).
    { rewrite <- (total_split s A MAP (W A) v a C AB Ha NN). fold T. apply (nle_antisym OK).
      - apply bigL_map_le; auto. apply in_seq. lia.
      - apply bigL_map_lub; auto. intros i Ii. apply in_seq in Ii. apply TL. lia. }
    assert (PT : (n0 < T j)%num). { eapply (nlt_le_trans OK). exact Pi0. apply in_seq in Ii0. apply TL. lia. }
    assert (UP : forall y, possible A y -> (W A y <= T j)%num).
    { intros y [Iy Ay]. rewrite TM. unfold total. pose proof (bigL_map_le OK (fun x => if agrees A x && true then W A x else n0) _ y Iy) as Q. cbv beta in Q. rewrite Ay in Q. simpl in Q. auto. }
    destruct (bigL_map_hit OK (fun x => if agrees A x && takes v j x then W A x else n0) (all_asg (sp_vars A)) PT) as (x & Ix & Ex).
    change (bigL MAP _ _) with (T j) in Ex. destruct (agrees A x && takes v j x) eqn:Q; [|exfalso; rewrite <- Ex in PT; eapply (nlt_irr OK); eauto].
    apply andb_true_iff in Q as [Q1 Q2]. unfold takes in Q2. apply Nat.eqb_eq in Q2.
    assert (MPx : most_probable (W A) A x). { split. split; auto. intros y Py. rewrite Ex. auto. }
    split.
    - exists x. auto.
    - intros y [[Iy Ay] My]. destruct (le_lt_dec j (val y v)) as [L|L]; auto. exfalso.
      assert (Ty : (W A y <= T (val y v))%num).
      { unfold T, total. pose proof (bigL_map_le OK (fun x => if agrees A x && takes v (val y v) x then W A x else n0) _ y Iy) as Q. cbv beta in Q.
        assert (TK : takes v (val y v) y = true) by (unfold takes; apply Nat.eqb_refl). rewrite Ay, TK in Q. simpl in Q. auto. }
      specialize (My x (proj1 MPx)). rewrite Ex in My. specialize (TF _ L).
      eapply (nlt_irr OK (T j)). eapply (nle_lt_trans OK); [|exact TF]. eapply (nle_trans OK); eauto.
  Qed.

  Lemma usable_evened A s : usable A s -> balanced H A -> evened s.
  Proof. intros [[C _] AB CL _] B. eapply balanced_evened; eauto. Qed.

  Theorem map_hidden A e n s v : usable A s -> env_ok e -> 1 <= n -> balanced H A -> positive (W A) A -> hidden A v ->
    tree_around H A v -> above_floor H A ->
    exists j s', get_map H e v n s = Ret j s' /\ best (W A) A v j.
  Proof.
    intros U E Ln B P Hv T AF. destruct (marginal_hidden A e MAP n s v U E Ln B P Hv) as (l & s' & U' & K & AR & D & Q & _ & X).
    destruct (X T (fun _ => AF)) as [El PS]. pose proof U' as [[C' _] AB' _ _]. destruct (known_at A s' v AB' (proj1 Hv)) as [a Ha].
    destruct (best_found A s' v a l C' (usable_evened A s' U' B) AB' Ha El PS) as (j & Ej & Bj).
    exists j, s'. split; auto. unfold get_map. rewrite Q. cbn [obind]. rewrite Ej. auto.
  Qed.

  Lemma hot_max n o : o < n -> find_max (map (fun j => if Nat.eqb j o then n1 else n0 : N) (seq 0 n)) = Ok o.
  Proof.
    intros L. set (l := map _ _). assert (LL : length l = n) by (unfold l; rewrite map_length, seq_length; auto).
    assert (NT : forall i, i < n -> nth i l n0 = if Nat.eqb i o then n1 else n0).
    { intros i Li. unfold l. apply (nth_map_seq (fun j => if Nat.eqb j o then n1 else n0)); auto. }
    destruct (find_max_ok OK l) as (j & Ej & Lj & MX & _). { intros Z. rewrite Z in LL. simpl in LL. lia. }
    rewrite Ej. f_equal. rewrite LL in *. specialize (MX o L). rewrite !NT in MX by auto. rewrite Nat.eqb_refl in MX.
    destruct (Nat.eqb_spec j o); auto. exfalso. rewrite (nlt_0_1 OK) in MX. discriminate.
  Qed.

  (** {1 Marginals and maxima of the specification} *)
  Lemma mass_total s A (w : asg -> N) v a : core s (g_all s) -> abs s A -> var_at s a v -> (forall x, In x (all_asg (sp_vars A)) -> (n0 <= w x)%num) ->
    sumL (fun j => total A SUM w (takes v j)) (seq 0 (vsize v)) = mass w A (fun _ => true).
  Proof. intros C AB Ha NN. rewrite <- total_sum. rewrite <- (total_split s A SUM w v a C AB Ha NN). reflexivity. Qed.

  Lemma mass_ext (w w' : asg -> N) A P : (forall x, In x (all_asg (sp_vars A)) -> w x = w' x) -> mass w A P = mass w' A P.
  Proof. intros E. unfold mass. apply sumL_ext. intros x Ix. rewrite E; auto. Qed.
  Lemma marginal_ext (w w' : asg -> N) A v k : (forall x, In x (all_asg (sp_vars A)) -> w x = w' x) -> marginal w A v k = marginal w' A v k.
  Proof. intros E. unfold marginal. rewrite !(mass_ext w w') by auto. auto. Qed.
  Lemma most_probable_ext (w w' : asg -> N) A x : (forall x, In x (all_asg (sp_vars A)) -> w x = w' x) -> most_probable w A x -> most_probable w' A x.
  Proof.
    intros E [P M]. split; auto. intros y Py. rewrite <- (E x), <- (E y); [apply M; auto|apply Py|apply P].
  Qed.
  Lemma positive_ext (w w' : asg -> N) A : (forall x, In x (all_asg (sp_vars A)) -> w x = w' x) -> positive w A -> positive w' A.
  Proof. intros E (x & P & L). exists x. split; auto. rewrite <- E; auto. apply P. Qed.
  Lemma best_ext (w w' : asg -> N) A v j : (forall x, In x (all_asg (sp_vars A)) -> w x = w' x) -> best w A v j -> best w' A v j.
  Proof.
    intros E [(x & M & V) L]. split.
    - exists x. split; auto. eapply most_probable_ext; eauto.
    - intros y My. apply L. apply (most_probable_ext w' w); auto. intros; symmetry; auto.
  Qed.

  Lemma symmetric_balanced A : symmetric H A -> balanced H A.
  Proof. intros S v w (Hv & Hw & f & J). eapply S; eauto. Qed.
  Lemma symmetric_weight s A x : core s (g_all s) -> abs s A -> symmetric H A -> In x (all_asg (sp_vars A)) -> W A x = weight H A x.
  Proof.
    intros C AB SY Ix. unfold weight_swapped, weight. apply prodL_ext. intros f If. unfold swapped.
    pose proof If as If'. rewrite <- (ab_all _ _ AB) in If'.
    destruct (co_fac _ _ _ C f If') as [(v & a & E & Ha & _)|(va & vb & a & b & c & E & Ha & Hb & _)]; unfold fvars in E; rewrite E; auto.
    destruct (is_obs A va || is_obs A vb) eqn:O; auto. apply orb_false_iff in O as [O1 O2].
    assert (Hva : hidden A va). { split. rewrite <- (ab_vars _ _ AB). eapply nth_error_In; eauto. unfold is_obs in O1. destruct (sp_evidence A va); auto. discriminate. }
    assert (Hvb : hidden A vb). { split. rewrite <- (ab_vars _ _ AB). eapply nth_error_In; eauto. unfold is_obs in O2. destruct (sp_evidence A vb); auto. discriminate. }
    destruct (SY f va vb) as [SE SV]; auto. { split; auto. }
    simpl. apply SV. rewrite SE. eapply spec_val; eauto. eapply spec_val; eauto.
  Qed.

  Theorem marginal_exact A e n s v : usable A s -> env_ok e -> 1 <= n -> balanced H A -> positive (W A) A -> hidden A v -> tree_around H A v ->
    exists s', get_marginal H e v n s = Ret (map (marginal (W A) A v) (seq 0 (vsize v))) s'.
  Proof.
    intros U E Ln B P Hv T. destruct (marginal_hidden A e SUM n s v U E Ln B P Hv) as (l & s' & U' & K & AR & D & Q & _ & X).
    destruct (X T) as [El PS]; [discriminate|]. exists s'. unfold get_marginal. rewrite Q, El. f_equal. apply map_ext. intros j.
    pose proof U' as [[C' _] AB' _ _]. destruct (known_at A s' v AB' (proj1 Hv)) as [a Ha].
    rewrite (mass_total s' A (W A) v a C' AB' Ha). rewrite total_sum. reflexivity.
    intros x. apply (w_spec_nonneg s'); auto. eapply usable_evened; eauto.
  Qed.

  (** {1 The hidden variables} *)
  Lemma hidden_vars_In s A e v : inv H s -> abs s A -> env_ok e -> In v (hidden_variables e s) -> hidden A v.
  Proof.
    intros [C CS] AB E. set (hl := flat_map (fun cl => e_ord e (gsize s) (cl_nodes cl)) (g_cl s)).
    assert (PH : Permutation hl (hid s)).
    { rewrite <- (cp_perm _ _ _ (cs_comp _ CS)). unfold hl. clear - E. induction (g_cl s) as [|cl l IH]; simpl; auto.
      rewrite IH. apply Permutation_app_tail. apply E. }
    assert (LH : forall a, In a hl -> a < gsize s) by (intros a I; rewrite PH in I; apply hid_In in I; tauto).
    assert (NH : NoDup hl) by (eapply perm_NoDup; [exact PH|apply hid_NoDup]).
    intros I. destruct (g_vars s) as [|d0 vs0] eqn:EV0.
    { assert (ZH : hl = []) by (destruct hl as [|x l]; auto; exfalso; specialize (LH x (or_introl eq_refl)); unfold gsize in LH; rewrite EV0 in LH; simpl in LH; lia).
      unfold hidden_variables in I. fold hl in I. rewrite ZH in I. contradiction. }
    assert (EH : hidden_variables e s = map (fun a => nth a (g_vars s) d0) hl) by (apply collect_vars; auto; apply C).
    rewrite EH in I. apply in_map_iff in I as (a & <- & Ia). pose proof (LH a Ia) as La. rewrite PH in Ia.
    apply (hidden_at s A AB a); auto. apply nth_error_nth'. auto.
  Qed.
  Lemma hidden_vars_keeps s s' e : keeps H s s' -> hidden_variables e s' = hidden_variables e s.
  Proof.
    intros K. unfold hidden_variables, gsize. rewrite (kp_vars _ _ _ K). f_equal.
    pose proof (kp_cl _ _ _ K) as EN. revert EN. generalize (g_cl s') (g_cl s). intros l l'. revert l'. induction l as [|c l IH]; intros [|c' l'] EN; try discriminate; auto.
    simpl in *. injection EN as E1 E2. rewrite E1, (IH _ E2). auto.
  Qed.

  Lemma rmap_ok {T U} (f : T -> res U) (P : T -> U -> Prop) l : (forall a, In a l -> exists b, f a = Ok b /\ P a b) -> exists r, rmap f l = Ok r /\ Forall2 P l r.
  Proof.
    induction l as [|a l IH]; intros Q; simpl. exists []. auto.
    destruct (Q a (or_introl eq_refl)) as (b & -> & Pb). destruct IH as (r & -> & F). intros; apply Q; simpl; auto.
    exists (b :: r). simpl. auto.
  Qed.

  Theorem hidden_map A e n s : usable A s -> env_ok e -> 1 <= n -> balanced H A -> positive (W A) A ->
    (forall v, hidden A v -> tree_around H A v) -> above_floor H A ->
    exists js s', get_hidden_map H e n s = Ret js s' /\ Forall2 (best (W A) A) (hidden_variables e s) js.
  Proof.
    intros U E Ln B P T AF. destruct (check_usable A e MAP n s U E Ln B P) as (s' & r & Q & U' & El & RD & K).
    pose proof U' as [[C' CS'] AB' CL' _]. unfold get_hidden_map. rewrite Q. cbn [obind].
    destruct (rmap_ok (fun v => match find_node s' v with None => UB | Some a => let* m := incoming e s' a in let* p := get_probabilities m in find_max p end)
      (best (W A) A) (hidden_variables e s')) as (js & Ej & F).
    - intros v Iv. apply (hidden_vars_In s' A e v (us_inv _ _ U') AB' E) in Iv. destruct (known_at A s' v AB' (proj1 Iv)) as [a Ha].
      rewrite (proj2 (find_node_spec s' v a (co_vars _ _ _ C'))) by eauto.
      assert (Ea : g_ev s' a = None) by (rewrite <- (ev_at s' A AB' a v Ha); apply Iv).
      destruct (ready_hidden A MAP s' r a v RD Ha Ea) as (l & D & EQ & X). destruct (X (T v Iv) (fun _ => conj B AF)) as [Ell PS].
      destruct (best_found A s' v a l C' (usable_evened A s' U' B) AB' Ha Ell PS) as (j & Ej & Bj). exists j. split; auto.
      specialize (EQ e E). destruct (incoming e s' a); try discriminate. cbn [rbind] in *. rewrite EQ. cbn [rbind]. auto.
    - exists js, s'. rewrite <- (hidden_vars_keeps s s' e K). split; auto. rewrite Ej. auto.
  Qed.
End Queries.
