(** Property C54, for conditional random fields and samples: no call goes through
    undefined behaviour, whatever the values of the factors, the weights, the
    evidences and the numbers drawn. The conditions are in CondSafeSpec.v ([csafe]).
    Property C34 for any arithmetic. *)
From Coq Require Import String List Arith Bool Lia Permutation Relations QArith Qcanon.
From Verif Require Import Res Num Categoric Combs Func FuncProofs GroupProofs FactorProofs FactorApi Special SpecialProofs
  Graph GraphLemmas Clusters Belief Query GraphInv EvidInv BeliefInv BigOp Tree Cycle BPStep BPRun GraphSpec Hist P_Graph BeliefSpec Sums Exact BeliefHist Queries
  Rebuild P_Belief Gibbs GibbsSpec Parts JointSpec Joint P_Joint SafeSpec Safe P_Safe Train TrainHist Coherent TrainSpec Gradient TrainInv GradientRun P_Categoric P_Factor Demo BeliefDemo TrainDemo P_Train
  P_Gradient P_GradientDemo FieldHist P_Field Plan FieldSafeSpec FieldSafe P_FieldSafe SampleSafe CRF CRFHist P_CRF CRFInv P_CRFDemo CondSafeSpec CondSafe.
From Verif Require Halt FieldHalt P_Halt.
Import ListNotations.
Open Scope nat_scope.

Section Graphs.
  Context {N : num}.
  Variable H : nat -> func N.
  Hypothesis HB : forall f, built (H f).
  Notation gst := (gst (N:=N)).
  Implicit Types s : gst.
  Local Notation HSd := (built_solids H HB).
  Notation model := (sp_run (fvars H)).

  Lemma fits_sample s A comb : NoDup (map vkey (g_vars s)) -> abs s A -> fits_model s comb -> sample_ok A comb.
  Proof.
    intros ND AB [V K]. unfold sample_ok. rewrite <- (ab_vars _ _ AB).
    assert (G : forall j l c, (forall i v, nth_error l i = Some v -> var_at s (j + i) v) -> (forall a k, g_ev s (j + a) = Some k -> a < length l -> nth_error c a = Some k) ->
      valid_comb (map vsize l) c -> Forall2 (fun v k => k < vsize v /\ match sp_evidence A v with Some x => k = x | None => True end) l c).
    { intros j l. revert j. induction l as [|v l IH]; intros j c Hl Hc Vc; inversion Vc as [|n x ? c' L1 L2]; subst; constructor.
      - split; auto. pose proof (Hl 0 v eq_refl) as V0. rewrite Nat.add_0_r in V0. unfold sp_evidence. change (vname v, vsize v) with (vkey v).
        rewrite <- (ab_ev _ _ AB j v V0). destruct (g_ev s j) as [k|] eqn:Ev; auto. specialize (Hc 0 k). rewrite Nat.add_0_r in Hc. specialize (Hc Ev ltac:(simpl; lia)). injection Hc as ->. auto.
      - apply (IH (S j)); auto.
        + intros i w Q. replace (S j + i) with (j + S i) by lia. apply Hl. exact Q.
        + intros a k Q La. replace (S j + a) with (j + S a) in Q by lia. apply (Hc (S a) k Q). simpl; lia. }
    apply (G 0); auto. 
  Qed.

  (** the samples of a graph: as many as asked, inside the sizes, equal to the
      evidences. There is no condition on the values of the factors and there
      are no laws of the arithmetic: the call may stop only at 0/0 *)
  Theorem C34_samples_any_numbers : forall ops s draw e ceil10 ctx threads, reach H no_failed_removal ops s -> g_pool s = Some 1 -> env_ok e -> 1 <= threads ->
    (exists samples s', make_samples H draw e ceil10 ctx threads s = Ret samples s' /\ length samples = x_samples ctx /\ Forall (sample_ok (model ops)) samples /\
       abs s' (model ops) /\ g_pool s' = Some 1) \/
    make_samples H draw e ceil10 ctx threads s = NotNum /\ exists x : N, ndz x = true.
  Proof.
    intros ops s draw e ceil10 ctx n R PO E L. destruct (reach_abs H HSd no_failed_removal ops s (fun _ _ h => h) R) as [IV AB].
    pose proof (samples_safe H HSd draw e ceil10 ctx n s 1 IV E L PO) as Q.
    pose proof (FieldHalt.calm_samples H HSd draw e ceil10 ctx n s) as NS.
    destruct (make_samples _ _ _ _ _ _ _) as [l g|g| | |]; simpl in Q; try contradiction.
    - left. destruct Q as (K & LS & PG & _ & LN & FM). exists l, g. splits; auto.
      + eapply Forall_impl; [|exact FM]. intros c Fc. eapply fits_sample; eauto. apply IV.
      + eapply keeps_abs; eauto.
    - right. auto.
    - exfalso. apply NS. exact (Halt.reach_szd H HSd _ ops s R).
  Qed.
End Graphs.

Section Fields.
  Context {N : num}.
  Notation rst := (rst (N:=N)).
  Notation crf := (crf (N:=N)).
  Implicit Types s : rst.

  (** {1 Samples of random fields} *)
  Theorem C34_field_samples_any_numbers : forall h top s draw e ceil10 ctx threads, (forall f, built (h f)) -> rreach h top rsafe s -> env_ok e -> 1 <= threads ->
    (exists samples s', on_g (make_samples (r_h s) draw e ceil10 ctx threads) s = Ret samples s' /\ length samples = x_samples ctx /\
       Forall (sample_ok (spec_of (r_g s))) samples) \/
    on_g (make_samples (r_h s) draw e ceil10 ctx threads) s = NotNum /\ exists x : N, ndz x = true.
  Proof.
    intros h top s draw e ceil10 ctx n Hb R E L. destruct (rreach_fin h top s Hb R) as [F [A _]]. pose proof (fl_coh _ _ F) as C.
    pose proof (samples_safe (r_h s) (coh_solid True s C) draw e ceil10 ctx n (r_g s) 1 (ch_inv _ _ C) E L A) as Q.
    pose proof (P_Halt.C29_samples_terminate h top s e draw ceil10 ctx n Hb (rreach_mono h top rsafe any s (fun _ _ _ => I) R) E) as NS.
    unfold on_g. destruct (make_samples _ _ _ _ _ _ _) as [l g|g| | |]; simpl in Q; try contradiction.
    - left. destruct Q as (K & LS & PG & _ & LN & FM). exists l, (set_g s g). splits; auto.
      eapply Forall_impl; [|exact FM]. intros c Fc. eapply fits_sample; eauto. apply C. apply (coh_abs True s C).
    - right. auto.
  Qed.

  (** {1 Conditional random fields} *)
  (** construction from a random field, and copies *)
  Theorem C54_conditional_construction_partial : forall h top s e copy, (forall f, built (h f)) -> rreach h top rsafe s -> env_ok e ->
    (exists c s', crf_ctor e s copy = Ret c s') \/ (exists s', crf_ctor e s copy = Thr s') \/ crf_ctor e s copy = NotNum /\ exists x : N, ndz x = true.
  Proof.
    intros h top s e copy Hb R E. destruct (rreach_fin h top s Hb R) as [F A]. pose proof (ch_r _ _ (fl_coh _ _ F)) as I0. pose proof (core_shape _ _ (proj1 (ch_inv _ _ (fl_coh _ _ F)))) as SH.
    pose proof (crf_ctor_fin e s copy (ri_built _ I0) E I0 SH) as X.
    pose proof (P_Halt.C29_conditional_construction_terminates h top s e copy Hb (rreach_mono h top rsafe any s (fun _ _ _ => I) R) E) as NS.
    destruct (crf_ctor e s copy) as [c t|t| | |]; try contradiction; eauto 7.
  Qed.
  Theorem C54_conditional_copy_partial : forall b (c : crf) e, proper b c -> env_ok e -> crf_ctor e (c_r c) false <> Undef.
  Proof.
    intros b c e R E Q. destruct (proper_lives b c R) as (L & _). pose proof (creach_inv c (clives_creach b c L)) as I0.
    pose proof (crf_ctor_fin e (c_r c) false (ri_built _ (ci_r _ I0)) E (ci_r _ I0) (ci_shape _ I0)) as X. rewrite Q in X. exact X.
  Qed.
  (** for all histories, iteration orders, numbers drawn and calls *)
  Theorem C54_conditional_no_undefined_behaviour_partial : forall b (c : crf) e op, proper b c -> cok op -> csafe b (c_r c) (c_pos c) op -> env_ok e ->
    ccall e (c_pos c) op (c_r c) <> Undef.
  Proof. intros b c e op R K G E. apply (proper_defined b c e op R K G E). Qed.
  (** in an arithmetic that goes on after 0/0 no call stops there *)
  Theorem C54_conditional_numbers_partial : (forall x : N, ndz x = false) -> forall b (c : crf) e op, proper b c -> cok op -> csafe b (c_r c) (c_pos c) op -> env_ok e ->
    ccall e (c_pos c) op (c_r c) <> Undef /\ ccall e (c_pos c) op (c_r c) <> NotNum.
  Proof.
    intros Z b c e op R K G E. destruct (proper_defined b c e op R K G E) as [Q1 Q2]. split; auto.
    intros Q. destruct (Q2 Q) as [x X]. rewrite Z in X. discriminate.
  Qed.
  (** the call returns or throws, unless it stops at a division of zero by zero *)
  Theorem C54_conditional_outcomes_partial : forall b (c : crf) e op, proper b c -> cok op -> csafe b (c_r c) (c_pos c) op -> env_ok e ->
    (forall draw floorf ceil10 es ctx p threads, op = CTrain draw floorf ceil10 es ctx p threads -> P_Halt.percentages floorf) ->
    (exists a s', ccall e (c_pos c) op (c_r c) = Ret a s') \/ (exists s', ccall e (c_pos c) op (c_r c) = Thr s') \/
    ccall e (c_pos c) op (c_r c) = NotNum /\ exists x : N, ndz x = true.
  Proof.
    intros b c e op R K G E T. destruct (proper_defined b c e op R K G E) as [Q1 Q2]. destruct (proper_lives b c R) as (L & _).
    pose proof (P_Halt.C29_conditional_calls_terminate c e op (clives_creach b c L) K E T) as NS.
    destruct (ccall e (c_pos c) op (c_r c)) as [a t|t| | |]; eauto; try congruence. right. right. split. reflexivity. exact (Q2 eq_refl).
  Qed.
  (** the samples of a conditional random field *)
  Theorem C34_conditional_samples_any_numbers : forall (c : crf) draw e ceil10 ctx threads, proper false c -> env_ok e -> 1 <= threads ->
    (exists samples s', on_g (make_samples (r_h (c_r c)) draw e ceil10 ctx threads) (c_r c) = Ret samples s' /\ length samples = x_samples ctx /\
       Forall (sample_ok (spec_of (r_g (c_r c)))) samples) \/
    on_g (make_samples (r_h (c_r c)) draw e ceil10 ctx threads) (c_r c) = NotNum /\ exists x : N, ndz x = true.
  Proof.
    intros c draw e ceil10 ctx n R E L. destruct (proper_lives false c R) as (CL & [PO _] & _). destruct (clives_full false c CL) as [C _ _]. simpl in C.
    pose proof (samples_safe (r_h (c_r c)) (coh_solid True _ C) draw e ceil10 ctx n (r_g (c_r c)) 1 (ch_inv _ _ C) E L PO) as Q.
    pose proof (P_Halt.C29_conditional_calls_terminate c e (CSamples draw ceil10 ctx n) (clives_creach false c CL) I E ltac:(discriminate)) as NS. cbn [ccall] in NS.
    unfold on_g in *. destruct (make_samples _ _ _ _ _ _ _) as [l g|g| | |]; simpl in Q; try contradiction.
    - left. destruct Q as (K & LS & PG & _ & LN & FM). exists l, (set_g (c_r c) g). splits; auto.
      eapply Forall_impl; [|exact FM]. intros x Fc. eapply fits_sample; eauto. apply C. apply (coh_abs True _ C).
    - right. auto.
  Qed.
End Fields.

(** {1 Examples} *)
Section Check.
  Notation crf := (crf (N:=QcNum)).
  Notation cop := (cop (N:=QcNum)).
  Notation rst := (rst (N:=QcNum)).
  Definition attachedb (s : rst) : bool :=
    forallb (fun c => forallb (fun f => match f_vars (r_h s f) with [_] => false | _ => true end) c) (tunable_clusters s).
  Lemma attachedb_ok s : attachedb s = true -> attached s.
  Proof.
    unfold attachedb. intros Q c f v Jc Jf FV. rewrite forallb_forall in Q. specialize (Q c Jc). rewrite forallb_forall in Q. specialize (Q f Jf). rewrite FV in Q. discriminate Q.
  Qed.
  Definition csafeb (b : bool) (s : rst) (pos : list nat) (op : cop) : bool :=
    match op with
    | CEv _ => true
    | CQuery op => negb b && safeb (r_h s) (spec_of (r_g s)) op
    | CWeights _ | COnes => attachedb s
    | CGradient _ it n => (1 <=? n) && balancedb (r_h s) (spec_of (r_g s)) && in_rangeb s it && forallb (fun p => p <? length (g_vars (r_g s))) pos
    | CSamples _ _ _ n => negb b && (1 <=? n)
    | CTrain _ floorf _ _ _ p n => (1 <=? n) && (neqb n1 p || negb (floorf (nofnat (combinations s) * p)%num =? 0))
    end.
  Lemma csafeb_ok b s pos op : csafeb b s pos op = true -> csafe b s pos op.
  Proof.
    destruct op; cbn [csafeb csafe]; intros Q; auto.
    - apply andb_true_iff in Q as [Q1 Q2]. split. destruct b; auto. apply safeb_ok; auto.
    - apply attachedb_ok; auto.
    - apply attachedb_ok; auto.
    - apply andb_true_iff in Q as [Q Q4]. apply andb_true_iff in Q as [Q Q3]. apply andb_true_iff in Q as [Q1 Q2]. apply Nat.leb_le in Q1. splits; auto.
      + apply balancedb_ok; auto.
      + apply in_rangeb_ok; auto.
      + intros p J. rewrite forallb_forall in Q4. apply Nat.ltb_lt. auto.
    - apply andb_true_iff in Q as [Q1 Q2]. split. destruct b; auto. apply Nat.leb_le; auto.
    - apply andb_true_iff in Q as [Q1 Q2]. apply Nat.leb_le in Q1. split; auto. apply orb_true_iff in Q2 as [Q2|Q2]; auto. right. apply negb_true_iff in Q2. apply Nat.eqb_neq; auto.
  Qed.
  Definition cstep1 (op : cop) (p : bool * crf) : bool * crf :=
    match ccall env_id (c_pos (snd p)) op (c_r (snd p)) with
    | Ret _ s => (stale_after (fst p) op, mkC s (c_pos (snd p)))
    | Thr s => (stale_thrown (fst p) op, mkC s (c_pos (snd p)))
    | _ => p
    end.
  Definition cruns (ops : list cop) (p : bool * crf) : bool * crf := fold_left (fun p op => cstep1 op p) ops p.
  Fixpoint csafely (ops : list cop) (p : bool * crf) : bool :=
    match ops with
    | [] => true
    | op :: r => csafeb (fst p) (c_r (snd p)) (c_pos (snd p)) op && rdone (ccall env_id (c_pos (snd p)) op (c_r (snd p))) && csafely r (cstep1 op p)
    end.
  Lemma cruns_proper ops : forall p, Forall cok ops -> proper (fst p) (snd p) -> csafely ops p = true -> proper (fst (cruns ops p)) (snd (cruns ops p)).
  Proof.
    induction ops as [|op ops IH]; intros p K R SA; auto. inversion K as [|? ? K1 K2]; subst.
    cbn [csafely] in SA. apply andb_true_iff in SA as [SA SB]. apply andb_true_iff in SA as [S1 S2]. apply csafeb_ok in S1.
    change (cruns (op :: ops) p) with (cruns ops (cstep1 op p)). apply IH; auto. clear SB IH.
    unfold cstep1. destruct (ccall env_id (c_pos (snd p)) op (c_r (snd p))) eqn:Q; try discriminate S2; cbn [fst snd].
    - eapply P_ret; eauto. apply env_id_ok.
    - eapply P_thr; eauto. apply env_id_ok.
  Qed.
End Check.

Example crf_field_safe : rreach cH 3 rsafe crf_field.
Proof. apply rruns_safely. constructor. vm_compute. reflexivity. Qed.
Lemma demo_crf_proper : proper false demo_crf.
Proof. destruct demo_crf_made as [s Q]. eapply P_field; [apply cH_built|apply crf_field_safe|apply env_id_ok|exact Q]. Qed.

(** evidences, also rejected ones (wrong number, out of range), queries, weights,
    gradients with one or several threads, samples, a train set *)
Definition cond_tale : list (cop (N:=QcNum)) :=
  [CQuery (OMarginal exA 1); CEv [2; 0]; CQuery (OMarginal exA 2); CEv [1]; CEv [1; 7]; CWeights [q 1 1; q 3 1]; CWeights [q 1 1];
   CGradient (fun _ => env_id) (mkTI [[0; 2; 0]; [1; 1; 1]] None) 2; CSamples (cdraws 0) (fun n => n) cctx 2; COnes; CEv [0; 1];
   CTrain cdraws qfloor (fun n => n) (fun _ => env_id) cctx (q 1 2) 1; CQuery (OMap exA 1)].
Notation cond_state := (cruns cond_tale (false, demo_crf)).
Lemma cond_cok : Forall cok cond_tale.
Proof. repeat (constructor; [simpl; auto; intros _; apply env_id_ok|]). constructor. Qed.
Example cond_proper : proper (fst cond_state) (snd cond_state).
Proof. apply cruns_proper. exact cond_cok. exact demo_crf_proper. vm_compute. reflexivity. Qed.
Notation cond_next := (CGradient (N:=QcNum) (fun _ => env_id) (mkTI [[1; 0; 1]; [0; 2; 1]; [1; 1; 0]] None) 3).
Example C54_conditional_example : csafe (fst cond_state) (c_r (snd cond_state)) (c_pos (snd cond_state)) cond_next /\
  P_Halt.hreturns (ccall env_id (c_pos (snd cond_state)) cond_next (c_r (snd cond_state))) = true.
Proof. split. apply csafeb_ok. vm_compute. reflexivity. vm_compute. reflexivity. Qed.
Example C34_conditional_example : fst cond_state = false /\ P_Halt.hreturns (on_g (make_samples (r_h (c_r (snd cond_state))) (cdraws 3) env_id (fun n => n) cctx 2) (c_r (snd cond_state))) = true.
Proof. split; vm_compute; reflexivity. Qed.
Example C34_field_example : P_Halt.hreturns (on_g (make_samples (r_h rsafe_state) (cdraws 1) env_id (fun n => n) cctx 3) rsafe_state) = true.
Proof. vm_compute. reflexivity. Qed.
Example C54_construction_example : P_Halt.hreturns (crf_ctor env_id crf_field false) = true /\ P_Halt.hreturns (crf_ctor env_id (c_r (snd cond_state)) false) = true.
Proof. split; vm_compute; reflexivity. Qed.

Print Assumptions C34_samples_any_numbers.
Print Assumptions C34_field_samples_any_numbers.
Print Assumptions C34_conditional_samples_any_numbers.
Print Assumptions C54_conditional_construction_partial.
Print Assumptions C54_conditional_copy_partial.
Print Assumptions C54_conditional_no_undefined_behaviour_partial.
Print Assumptions C54_conditional_numbers_partial.
Print Assumptions C54_conditional_outcomes_partial.
