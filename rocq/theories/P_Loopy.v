(** Property C26 on every graph, also with cycles: a query asked again after
    other queries has the same answer. *)
From Coq Require Import String List Arith Bool Lia Permutation Relations QArith Qcanon.
From Verif Require Import Res Num Categoric Combs Func FuncProofs GroupProofs FactorProofs FactorApi Special SpecialProofs
  Graph GraphLemmas Clusters Belief Query GraphInv EvidInv BeliefInv BigOp Tree Cycle BPStep BPRun GraphSpec Hist
  P_Categoric P_Factor Demo P_Graph BeliefSpec Sums Exact BeliefHist Queries Rebuild BeliefDemo P_Belief Indep SchedIndep Warm.
Import ListNotations.
Open Scope nat_scope.

Section P.
  Context {N : num} (OK : num_ok N).
  Variable H : nat -> func N.
  (** the factor objects are any objects the API can build *)
  Hypothesis HB : forall f, built (H f).
  Notation gst := (gst (N:=N)).
  Implicit Types s : gst.
  Local Notation HGd := (built_goods OK H HB).
  Local Notation HSd := (built_solids H HB).
  Notation model := (sp_run (fvars H)).
  Notation rest := (Queries.at_rest).

  (** a query on equal states, with the propagation done *)
  Lemma geq_query e op k n s t a : query_kind op = Some k -> geq s t -> rest k s -> rest k t ->
    call H e op s = Ret a s -> call H e (with_threads op n) t = Ret a t.
  Proof.
    intros Qk G R R'.
    assert (CS : forall m, check_propagation H e k m s = Ret tt s) by (intros; apply (at_rest_check H); auto).
    assert (CT : forall m, check_propagation H e k m t = Ret tt t) by (intros; apply (at_rest_check H); auto).
    assert (MQ : forall v m, marginal_query H e k v m s = match locate s v with None => Thr s | Some (x, l) => lift (marginal_at e s x l) s end) by (intros; unfold marginal_query; rewrite CS; auto).
    assert (MT : forall v m, marginal_query H e k v m t = match locate s v with None => Thr t | Some (x, l) => lift (marginal_at e s x l) t end).
    { intros. unfold marginal_query. rewrite CT. cbn [obind]. rewrite (geq_locate s t v G). destruct (locate s v) as [[x l]|]; auto. rewrite (geq_marginal_at e s t x l G). auto. }
    assert (FV : forall nm, find_variable t nm = find_variable s nm) by (intros; unfold find_variable; rewrite (ge_vars _ _ G); auto).
    assert (JT : forall g m m' b, k = SUM -> omap AFac (get_joint H e g m s) = Ret b s -> omap AFac (get_joint H e g m' t) = Ret b t).
    { intros g m m' b -> Q. unfold get_joint in *. rewrite CS in Q. rewrite CT. cbn [obind] in *.
      rewrite (rmap_ext (fun v => match locate t v with Some l => Ok l | None => Throw end) (fun v => match locate s v with Some l => Ok l | None => Throw end)) by (intros v; rewrite (geq_locate s t v G); auto).
      destruct (rmap _ (g_soup g)) as [locs| | | |]; try discriminate. cbn [lift obind] in *. rewrite (geq_size s t G).
      rewrite (rfold_ext (contrib_step e t (map fst locs)) (contrib_step e s (map fst locs)) locs (fun st al => geq_contrib e s t _ st al G)).
      destruct (rfold (contrib_step e s (map fst locs)) locs ([], [])) as [[cs inds]| | | |]; try discriminate. cbn [rbind] in *.
      rewrite (rmap_ext (contrib_factor H t inds) (contrib_factor H s inds) _ (fun c => geq_contrib_factor H s t inds c G)).
      destruct (let* fs := _ in _) as [f| | | |]; try discriminate. cbn [lift omap] in *. injection Q as <-. auto. }
    destruct op; try discriminate Qk; injection Qk as <-; cbn [call with_threads]; intros Q.
    - unfold get_marginal in *. rewrite MQ in Q. rewrite MT. destruct (locate s v) as [[x l]|]; [|discriminate]. destruct (marginal_at e s x l); try discriminate. simpl in *. injection Q as <-. auto.
    - unfold get_marginal_name, get_marginal in *. rewrite FV. destruct (find_variable s n0) as [v| | | |]; try discriminate. cbn [lift obind] in *.
      rewrite MQ in Q. rewrite MT. destruct (locate s v) as [[x l]|]; [|discriminate]. destruct (marginal_at e s x l); try discriminate. simpl in *. injection Q as <-. auto.
    - unfold get_map in *. rewrite MQ in Q. rewrite MT. destruct (locate s v) as [[x l]|]; [|discriminate]. destruct (marginal_at e s x l) as [p| | | |]; try discriminate. cbn [lift obind] in *. destruct (find_max p); try discriminate. simpl in *. injection Q as <-. auto.
    - unfold get_map_name, get_map in *. rewrite FV. destruct (find_variable s n0) as [v| | | |]; try discriminate. cbn [lift obind] in *.
      rewrite MQ in Q. rewrite MT. destruct (locate s v) as [[x l]|]; [|discriminate]. destruct (marginal_at e s x l) as [p| | | |]; try discriminate. cbn [lift obind] in *. destruct (find_max p); try discriminate. simpl in *. injection Q as <-. auto.
    - unfold get_hidden_map in *. rewrite CS in Q. rewrite CT. cbn [obind] in *. rewrite (geq_hidden e s t G).
      rewrite (rmap_ext (fun v => match find_node t v with None => UB | Some x => let* m := incoming e t x in let* p := get_probabilities m in find_max p end)
        (fun v => match find_node s v with None => UB | Some x => let* m := incoming e s x in let* p := get_probabilities m in find_max p end)).
      2:{ intros v. rewrite (geq_find s t v G). destruct (find_node s v) as [x|]; auto. rewrite (geq_incoming e s t x G). auto. }
      destruct (rmap _ _); try discriminate. simpl in *. injection Q as <-. auto.
    - eapply JT; eauto.
    - unfold get_joint_names in *. rewrite (rmap_ext (find_variable t) (find_variable s)) by auto. destruct (rmap (find_variable s) ns) as [vs| | | |]; try discriminate. cbn [lift obind] in *.
      destruct (group_ctor vs) as [g| | | |]; try discriminate. cbn [lift obind] in *. eapply JT; eauto.
  Qed.
  (** queries that answer, of any kind, with the iteration orders [ord] of the
      containers (that queries do not modify) and, as the query repeated, one
      thread or several ones; the schedules of the threads are arbitrary *)
  Inductive asks (ord : nat -> list nat -> list nat) (n : nat) : gst -> gst -> Prop :=
  | Asks_none s : asks ord n s s
  | Asks_more s s1 s2 e op m a : asks ord n s s1 -> env_ok e -> e_ord e = ord -> query op -> query_threads op = Some m -> same_class n m ->
      call H e op s1 = Ret a s2 -> asks ord n s s2.

  Definition restorable (A : spec) (op : gop) : Prop := no_failed_removal A op /\ separated_removal (fvars H) A op.

  Lemma same_ord e e' : e_ord e' = e_ord e -> e' = with_sched e (e_sched e').
  Proof. destruct e, e'. simpl. intros ->. reflexivity. Qed.
  Lemma rest_need k k' (t : gst) : rest k t -> would_need t k' = negb (kind_eqb k k').
  Proof. intros (r & Er & <-). unfold would_need. rewrite Er. auto. Qed.
  Lemma kind_eqb_spec k k' : kind_eqb k k' = true <-> k = k'.
  Proof. destruct k, k'; simpl; split; congruence. Qed.

  Section Story.
    Variables (s s1 : gst) (e : env) (k : kind) (n : nat).
    Hypothesis E : env_ok e.
    Hypothesis Is : inv H s.
    Hypothesis CL : clean s.
    Hypothesis PS : g_pool s = Some 1.
    Hypothesis W : would_need s k = true.
    Hypothesis Q : check_propagation H e k n s = Ret tt s1.

    Record same_story (t : gst) : Prop := {
      ss_inv : inv H t; ss_pool : g_pool t = Some 1; ss_ready : ready H e s t;
      ss_rest : exists k', rest k' t /\ (k' = k -> geq s1 t)
    }.
    Lemma story_start : same_story s1.
    Proof.
      pose proof (check_leaves H e k n s s1 E Is PS W Q) as R. constructor; auto.
      - eapply keeps_inv; eauto. apply R.
      - destruct (check_parts H e k n s s1 E PS W Q) as (? & ? & ? & _ & _ & _ & ->). auto.
      - exists k. split. eapply P_Belief.check_rest; eauto. intros _. apply geq_refl.
    Qed.
    Lemma story_check t e' k' m t' : same_story t -> env_ok e' -> e_ord e' = e_ord e -> same_class n m -> check_propagation H e' k' m t = Ret tt t' -> same_story t'.
    Proof.
      intros [It Pt Rt (k0 & R0 & G0)] E' EO SC Qt.
      destruct (ready_again H e e' k' m s t t' E' It Pt Rt Qt) as [R' P'].
      constructor; auto.
      - eapply keeps_inv; [|exact Is]. apply R'.
      - exists k'. split. eapply P_Belief.check_rest; eauto. intros ->. destruct (would_need t k) eqn:Wt.
        + destruct (check_again H e E k n m s s1 t Is CL It PS Pt Rt SC W Wt Q) as (t1 & Q1 & G1).
          assert (SM : sim (check_propagation H e k m t) (check_propagation H e' k m t)).
          { rewrite (same_ord e e' EO). destruct It. apply (sim_check OK H e E); auto. apply E'. rewrite Pt; congruence. apply geq_refl. }
          rewrite Q1 in SM. destruct SM as (t2 & Q2 & G2). assert (t2 = t') by congruence. subst t2. eapply geq_trans; eauto.
        + unfold check_propagation in Qt. rewrite Wt in Qt. injection Qt as <-. apply G0. rewrite (rest_need k0 k t R0) in Wt.
          apply kind_eqb_spec. destruct (kind_eqb k0 k); auto.
    Qed.
    Lemma story_asks t t' : same_story t -> asks (e_ord e) n t t' -> same_story t'.
    Proof.
      intros S A. induction A as [t|t t1 t2 e' op m a A IH E' EO Qo Qm SC Qc]; auto. specialize (IH S).
      destruct (query_kind op) as [k'|] eqn:Qk.
      - destruct (query_shape H op k' Qk e' t1 (ss_inv _ IH) E') as [(? & Z & _)|[Z|(ans & SH)]]; try congruence.
        assert (WT : with_threads op m = op) by (destruct op; simpl in *; congruence).
        specialize (SH m t1 eq_refl). rewrite WT, Qc in SH.
        destruct (check_propagation H e' k' m t1) as [[] t3| | | |] eqn:CH; try discriminate. cbn [obind] in SH.
        assert (t2 = t3) by (eapply lift_state; right; eauto). subst t3. eapply story_check; eauto.
      - destruct op; try discriminate. simpl in Qm. injection Qm as ->. cbn [call] in Qc.
        set (kk := if sum then SUM else MAP) in *.
        assert (PI : exists u, scoped_pool m (propagate H e' kk) t1 = Ret u t2). { destruct (scoped_pool m (propagate H e' kk) t1) as [u t3| | | |]; try discriminate. simpl in Qc. injection Qc as _ <-. eauto. }
        destruct PI as ([] & PI). destruct (would_need t1 kk) eqn:Wt.
        + eapply (story_check t1 e' kk m t2); eauto. unfold check_propagation. rewrite Wt. auto.
        + assert (t2 = t1 \/ t2 = set_pool t1 (Some 1)) as X.
          { unfold scoped_pool, set_pool_size in PI. rewrite (ss_pool _ IH) in PI. destruct (m =? 1); [|destruct (m =? 0); [discriminate|]]; cbn [obind] in PI; unfold propagate in PI.
            - rewrite Wt in PI. simpl in PI. injection PI as <-. auto.
            - change (would_need (set_pool t1 (Some m)) kk) with (would_need t1 kk) in PI. rewrite Wt in PI. simpl in PI. injection PI as <-. auto. }
          assert (GE : geq t1 t2). { destruct X as [->| ->]. apply geq_refl. constructor; auto. simpl. symmetry. apply IH. }
          assert (KE : keeps H t1 t2). { destruct X as [->| ->]. apply keeps_refl. apply keeps_pool. }
          destruct IH as [It Pt Rt (k0 & R0 & G0)]. constructor.
          * eapply keeps_inv; eauto.
          * destruct X as [->| ->]; auto.
          * constructor.
            -- eapply keeps_trans; [apply Rt|exact KE].
            -- intros j cl Hj. apply (filled_dst H e s t1 t2). rewrite (ge_cl _ _ GE); auto. intros; apply GE. apply Rt; auto.
            -- intros x Nx. rewrite (ge_merged _ _ GE). apply Rt; auto.
          * exists k0. split. destruct R0 as (r & Er & Ek). exists r. rewrite (ge_last _ _ GE). auto. intros D. eapply geq_trans; eauto.
    Qed.
  End Story.

  (** no condition on the factors, cycles allowed; the first query does the
      propagation; the query is asked again with any schedule, and any number of
      threads when it was asked with several threads *)
  Theorem C26_interleaved_answers_partial : forall ops s e op k n a s1 s2 e' n', reach H restorable ops s -> env_ok e -> env_ok e' -> e_ord e' = e_ord e ->
    query_kind op = Some k -> query_threads op = Some n -> same_class n n' -> would_need s k = true ->
    call H e op s = Ret a s1 -> asks (e_ord e) n s1 s2 ->
    exists s3, call H e' (with_threads op n') s2 = Ret a s3.
  Proof.
    intros ops s e op k n a s1 s2 e' n' R E E' EO Qk Qt SC W Qc A.
    assert (G1 : forall A op, restorable A op -> no_failed_removal A op) by (intros ? ? (Z & _); auto).
    destruct (reach_abs H HSd restorable ops s G1 R) as [Is AB]. pose proof (reach_clean H HSd restorable ops s (fun _ _ h => h) R) as CL.
    destruct (query_shape H op k Qk e s Is E) as [(? & Z & _)|[Z|(ans & SH)]]; try congruence.
    assert (WT : with_threads op n = op) by (destruct op; simpl in *; congruence).
    pose proof (SH n s eq_refl) as SHs. rewrite WT, Qc in SHs.
    destruct (check_propagation H e k n s) as [[] s'| | | |] eqn:CH; try discriminate. cbn [obind] in SHs.
    assert (s1 = s') by (eapply lift_state; right; eauto). subst s'.
    assert (PS : g_pool s = Some 1).
    { destruct (reach_rest H restorable ops s R) as [P|P]; auto. unfold check_propagation in CH. rewrite W in CH. unfold scoped_pool, set_pool_size in CH. rewrite P in CH. discriminate. }
    pose proof (story_start s s1 e k n E Is PS W CH) as S1.
    pose proof (story_asks s s1 e k n E Is CL PS W CH s1 s2 S1 A) as S2.
    assert (R1 : rest k s1) by (eapply P_Belief.check_rest; eauto).
    assert (K1 : keeps H s s1) by apply S1.
    assert (QA : call H e op s1 = Ret a s1).
    { pose proof (SH n s1 (kp_vars _ _ _ K1)) as SH1. rewrite WT, (at_rest_check H e k n s1 R1) in SH1. cbn [obind] in SH1. congruence. }
    (* the propagation of the last query *)
    assert (CK : exists s3, check_propagation H e' k n' s2 = Ret tt s3).
    { destruct S2 as [I2 P2 R2 (k0 & R0 & G0)]. destruct (would_need s2 k) eqn:W2.
      - destruct (check_again H e E k n n' s s1 s2 Is CL I2 PS P2 R2 SC W W2 CH) as (t1 & Q1 & G1').
        assert (SM : sim (check_propagation H e k n' s2) (check_propagation H e' k n' s2)).
        { rewrite (same_ord e e' EO). destruct I2. apply (sim_check OK H e E); auto. apply E'. rewrite P2; congruence. apply geq_refl. }
        rewrite Q1 in SM. destruct SM as (t2 & Q2 & _). eauto.
      - exists s2. unfold check_propagation. rewrite W2. auto. }
    destruct CK as (s3 & CK). pose proof (story_check s s1 e k n E Is CL PS W CH s2 e' k n' s3 S2 E' EO SC CK) as [I3 P3 R3 (k3 & RR & G3)].
    assert (R3k : rest k s3) by (eapply P_Belief.check_rest; eauto).
    assert (k3 = k). { destruct RR as (r & Er & Ek), R3k as (r' & Er' & Ek'). congruence. } subst k3. specialize (G3 eq_refl).
    exists s3.
    assert (QA' : call H e' op s1 = Ret a s1).
    { rewrite (same_ord e e' EO). pose proof (sim_call OK H e E (e_sched e') (proj2 E') op s1) as SM.
      rewrite QA in SM. destruct SM as (t & Qt' & _). eapply keeps_inv; eauto. left. apply S1.
      rewrite Qt'. f_equal. rewrite <- (same_ord e e' EO) in Qt'. eapply (rest_query H e' op k s1 t); eauto. eapply keeps_inv; eauto. right; eauto. }
    pose proof (geq_query e' op k n' s1 s3 a Qk G3 R1 R3k QA') as FIN.
    (* the call starts with the propagation *)
    assert (K2 : keeps H s s2) by apply S2.
    destruct (query_shape H op k Qk e' s1 (ss_inv _ _ _ _ _ S1) E') as [(? & Z & _)|[Z|(ans' & SH')]]; try congruence.
    assert (V2 : g_vars s2 = g_vars s1) by (rewrite (kp_vars _ _ _ K2), (kp_vars _ _ _ K1); auto).
    assert (V3 : g_vars s3 = g_vars s1) by (rewrite (kp_vars _ _ _ K1); apply R3).
    pose proof (SH' n' s3 V3) as F3. rewrite FIN, (at_rest_check H e' k n' s3 R3k) in F3. cbn [obind] in F3.
    rewrite (SH' n' s2 V2), CK. cbn [obind]. congruence.
  Qed.
  (** {1 C55} *)
  (** the number of threads does not matter when it is more than one: on every
      graph, for every schedule *)
  Theorem C55_several_threads_partial : forall ops s e op k n a s1 e' n', reach H no_failed_removal ops s -> env_ok e -> env_ok e' -> e_ord e' = e_ord e ->
    query_kind op = Some k -> query_threads op = Some n -> 2 <= n -> 2 <= n' ->
    call H e op s = Ret a s1 ->
    exists s2, call H e' (with_threads op n') s = Ret a s2 /\ geq s1 s2.
  Proof.
    intros ops s e op k n a s1 e' n' R E E' EO Qk Qt L L' Qc.
    destruct (reach_abs H HSd no_failed_removal ops s (fun _ _ h => h) R) as [Is AB].
    assert (SC : same_class n n') by (right; auto).
    assert (Q' : call H e (with_threads op n') s = Ret a s1).
    { destruct (query_shape H op k Qk e s Is E) as [(? & Z & _)|[Z|(ans & SH)]]; try congruence.
      assert (WT : with_threads op n = op) by (destruct op; simpl in *; congruence).
      pose proof (SH n s eq_refl) as SHs. rewrite WT, Qc in SHs. rewrite (SH n' s eq_refl).
      destruct (check_propagation H e k n s) as [[] s'| | | |] eqn:CH; try discriminate.
      destruct (reach_rest H no_failed_removal ops s R) as [P|P].
      - rewrite (check_class H e k n n' s s' E SC P CH). auto.
      - assert (CH' : check_propagation H e k n' s = Ret tt s'). { unfold check_propagation in *. destruct (would_need s k); auto. unfold scoped_pool, set_pool_size in CH. rewrite P in CH. discriminate. }
        rewrite CH'. auto. }
    pose proof (sim_call OK H e E (e_sched e') (proj2 E') (with_threads op n') s Is (reach_rest H no_failed_removal ops s R)) as SM.
    rewrite Q', <- (same_ord e e' EO) in SM. exact SM.
  Qed.
End P.

(** {1 Examples} *)
(** a ring of three variables with a fourth attached *)
Definition ring_tale : list gop := [OAdd (Some 0); OAdd (Some 1); OAdd (Some 4); OAdd (Some 3); OIters 1].
Example ring_tale_reach : reach bH (proper_use bH) ring_tale (runs bH ring_tale).
Proof. apply properly_reach; vm_compute; reflexivity. Qed.
Lemma reach_guard {N : num} (H : nat -> func N) (G G' : spec -> gop -> Prop) ops s : (forall A op, G A op -> G' A op) -> reach H G ops s -> reach H G' ops s.
Proof. intros I R. induction R; [constructor|eapply R_ret; eauto|eapply R_thr; eauto]. Qed.
Example ring_tale_restorable : reach bH (restorable bH) ring_tale (runs bH ring_tale).
Proof. eapply reach_guard; [|exact ring_tale_reach]. intros A op (G1 & G2 & _). split; auto. Qed.
(** the hypotheses of [C26_interleaved_answers_partial]: a marginal, then a MAP query and another
    marginal, each doing its own propagation, with other numbers of threads and schedules *)
Definition is_ret {S A} (o : out S A) : bool := match o with Ret _ _ => true | _ => false end.
Definition after {S A} (o : out S A) (d : S) : S := match o with Ret _ s => s | _ => d end.
Lemma is_ret_after {S A} (o : out S A) d : is_ret o = true -> exists a, o = Ret a (after o d).
Proof. destruct o; try discriminate. simpl. eauto. Qed.
Definition env_mixed : env := mkEnv (fun _ l => l) (fun _ l => rev l).
Lemma env_mixed_ok : env_ok env_mixed.
Proof. split; intros t l; simpl; auto. apply Permutation_sym, Permutation_rev. Qed.
Notation ring0 := (runs bH ring_tale).
Notation ring1 := (after (call bH env_id (OMarginal exA 2) ring0) ring0).
Notation ring2 := (after (call bH env_mixed (OMap exC 3) ring1) ring0).
Notation ring3 := (after (call bH env_id (OMarginal exD 2) ring2) ring0).
Notation ring4 := (after (call bH env_id (OHiddenMap 4) ring3) ring0).
Example ring_asks : exists a, call bH env_id (OMarginal exA 2) ring0 = Ret a ring1 /\ would_need ring0 SUM = true /\
  asks bH (e_ord env_id) 2 ring1 ring4 /\ would_need ring4 SUM = true.
Proof.
  destruct (is_ret_after (call bH env_id (OMarginal exA 2) ring0) ring0) as (a & Q1). vm_compute; reflexivity.
  destruct (is_ret_after (call bH env_mixed (OMap exC 3) ring1) ring0) as (a2 & Q2). vm_compute; reflexivity.
  destruct (is_ret_after (call bH env_id (OMarginal exD 2) ring2) ring0) as (a3 & Q3). vm_compute; reflexivity.
  destruct (is_ret_after (call bH env_id (OHiddenMap 4) ring3) ring0) as (a4 & Q4). vm_compute; reflexivity.
  exists a. splits.
  - exact Q1.
  - vm_compute. reflexivity.
  - eapply (Asks_more bH _ 2 ring1 ring3 ring4 env_id (OHiddenMap 4) 4 a4); [|apply env_id_ok|reflexivity|eexists; reflexivity|reflexivity|right; lia|exact Q4].
    eapply (Asks_more bH _ 2 ring1 ring2 ring3 env_id (OMarginal exD 2) 2 a3); [|apply env_id_ok|reflexivity|eexists; reflexivity|reflexivity|left; auto|exact Q3].
    eapply (Asks_more bH _ 2 ring1 ring1 ring2 env_mixed (OMap exC 3) 3 a2); [|apply env_mixed_ok|reflexivity|eexists; reflexivity|reflexivity|right; lia|exact Q2].
    constructor.
  - vm_compute. reflexivity.
Qed.

(** {1 Graphs with cycles: what the answers depend on} *)
Lemma two_answers {S} (o o' : out S (list Qc)) :
  match o, o' with Ret a _, Ret b _ => negb (if list_eq_dec Qc_eq_dec a b then true else false) | _, _ => false end = true ->
  exists a b s1 s2, o = Ret a s1 /\ o' = Ret b s2 /\ a <> b.
Proof.
  destruct o as [a s1| | | |]; try discriminate. destruct o' as [b s2| | | |]; try discriminate. destruct (list_eq_dec Qc_eq_dec a b); try discriminate.
  intros _. exists a, b, s1, s2. auto.
Qed.
(** one thread or two threads *)
Theorem C55_one_or_two_threads_refuted : exists (H : nat -> func QcNum) ops s e v a b s1 s2,
  (forall f, built (H f)) /\ reach H (proper_use H) ops s /\ balanced H (sp_run (fvars H) ops) /\ hidden (sp_run (fvars H) ops) v /\ env_ok e /\
  get_marginal H e v 1 s = Ret a s1 /\ get_marginal H e v 2 s = Ret b s2 /\ a <> b.
Proof.
  destruct (two_answers (get_marginal bH env_rev exA 1 ring0) (get_marginal bH env_rev exA 2 ring0)) as (a & b & s1 & s2 & Q1 & Q2 & D). vm_compute; reflexivity.
  exists bH, ring_tale, ring0, env_rev, exA, a, b, s1, s2. splits; auto using bH_built, ring_tale_reach, env_rev_ok.
  - apply balancedb_ok. vm_compute. reflexivity.
  - split. simpl; auto. reflexivity.
Qed.
(** the order of the hash containers *)
Theorem C27_loop_order_refuted : exists (H : nat -> func QcNum) ops s e e' v a b s1 s2,
  (forall f, built (H f)) /\ reach H (proper_use H) ops s /\ balanced H (sp_run (fvars H) ops) /\ hidden (sp_run (fvars H) ops) v /\ env_ok e /\ env_ok e' /\
  get_marginal H e v 1 s = Ret a s1 /\ get_marginal H e' v 1 s = Ret b s2 /\ a <> b.
Proof.
  destruct (two_answers (get_marginal bH env_id exA 1 ring0) (get_marginal bH env_rev exA 1 ring0)) as (a & b & s1 & s2 & Q1 & Q2 & D). vm_compute; reflexivity.
  exists bH, ring_tale, ring0, env_id, env_rev, exA, a, b, s1, s2. splits; auto using bH_built, ring_tale_reach, env_rev_ok, env_id_ok.
  - apply balancedb_ok. vm_compute. reflexivity.
  - split. simpl; auto. reflexivity.
Qed.

Print Assumptions C26_interleaved_answers_partial.
Print Assumptions C55_several_threads_partial.
Print Assumptions C55_one_or_two_threads_refuted.
Print Assumptions C27_loop_order_refuted.
