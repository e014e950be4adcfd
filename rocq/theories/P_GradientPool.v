(** C32: the tasks of the gradient *)
From Coq Require Import String List Arith Bool Lia Permutation Relations QArith Qcanon.
From Verif Require Import Res Num Categoric Func FactorApi Graph GraphLemmas Belief BPRun Pool PoolProofs PoolComm Train Gibbs GibbsChain GibbsPool CRF GradientPool
  P_Categoric Demo BeliefDemo TrainDemo P_GradientDemo.
Import ListNotations.
Open Scope nat_scope.

Section P.
  Context {N : num}.
  Notation rst := (rst (N:=N)).

  (** a pool of [n] threads executes the tasks of the tuners [ts], accesses to the
      shared memory interleaved by [sched] in any way; [res] are the values in the
      receivers before the tasks, [sums] and [alphas] what former calls have left *)
  Definition gradient_threads (n : nat) (code : tuner -> list (cell -> option cell)) (ts : list tuner) (res : list N)
      (sums : nat -> N) (alphas : nat -> nat -> option N) (sched : list nat) : config gmemory :=
    run gmemory n (gen_jobs gmemory gtask gcode [gtasks code ts]) sched (start gmemory (mkGM sums alphas res false)).

  Lemma batch_end n code ts res new sums alphas sched : 1 <= n -> length res = length ts -> length new = length ts ->
    (forall i t x c, nth_error ts i = Some t -> nth_error new i = Some x -> nth_error res i = Some (ce_res c) ->
       exists c', steps (code t) c = Some c' /\ ce_res c' = x) ->
    let c := gradient_threads n code ts res sums alphas sched in
    c_ub gmemory c = false -> c_m gmemory c = MDone -> gm_res (c_mem gmemory c) = new /\ gm_bad (c_mem gmemory c) = false.
  Proof.
    intros Hn L1 L2 C c U D. set (jobs := gen_jobs gmemory gtask gcode [gtasks code ts]).
    pose proof (run_inv gmemory n jobs Hn (mkGM sums alphas res false) sched _ (pinv_start gmemory n _ Hn _) U) as [A _ B P].
    fold c in A, B, P. change (run gmemory n jobs sched (start gmemory (mkGM sums alphas res false))) with c in A, B, P.
    unfold phase in P. rewrite D in P. destruct P as (P1 & P2 & _). rewrite P2 in B. rewrite B.
    destruct (c_past gmemory c) as [|l [|? ?]]; try discriminate P1. cbn [effects].
    assert (I : interleaving gmemory n jobs 0 l) by (apply A; reflexivity).
    assert (IND : forall b, In b [gtasks code ts] -> ForallOrdPairs gindep b) by (intros b [<-|[]]; apply gtasks_indep).
    pose proof (gen_interleaving gmemory gmeq gmeq_refl gmeq_sym gmeq_trans gtask gcode gindep gindep_sym gcode_proper gcode_comm n Hn [gtasks code ts] IND 0 l (mkGM sums alphas res false) I) as [_ _ E1 E2].
    destruct (gen_all_ok n code ts 0 0 (mkGM sums alphas res false) res new [] eq_refl eq_refl C L1 L2) as [F1 F2].
    split; [exact (eq_trans (eq_sym E1) F1)|exact (eq_trans (eq_sym E2) F2)].
  Qed.

  Lemma rmap_nth {A B} (f : A -> res B) l l' i x y : rmap f l = Ok l' -> nth_error l i = Some x -> nth_error l' i = Some y -> f x = Ok y.
  Proof.
    revert l' i. induction l as [|a l IH]; intros l' i R X Y; simpl in R. destruct i; discriminate.
    destruct (f a) as [b| | | |] eqn:E; try discriminate. cbn [rbind] in R. destruct (rmap f l) as [r| | | |]; try discriminate. injection R as <-.
    destruct i as [|i]; simpl in *. congruence. eapply IH; eauto.
  Qed.
  Lemma rmap_len {A B} (f : A -> res B) l : forall l', rmap f l = Ok l' -> length l' = length l.
  Proof.
    induction l as [|a l IH]; intros l' R; simpl in R. injection R as <-; auto. destruct (f a); try discriminate. cbn [rbind] in R. destruct (rmap f l) as [r| | | |]; try discriminate.
    injection R as <-. simpl. f_equal; auto.
  Qed.

  (** The gradient of a random field: whatever the number of threads and the
      interleaving of their accesses, when the tasks are finished the vector returned
      is the one of the tasks executed one after the other. *)
  Theorem C32_gradient_schedules_partial : forall n e it (s s1 : rst) samples values sums alphas sched, 1 <= n ->
    iter_samples it = Ok samples -> rf_gradient e it s = Ret values s1 ->
    let c := gradient_threads n (field_code (r_h s1) e (r_g s1) samples) (r_tuners s1) (repeat n0 (length (r_tuners s1))) sums alphas sched in
    c_ub gmemory c = false -> c_m gmemory c = MDone -> gm_res (c_mem gmemory c) = values /\ gm_bad (c_mem gmemory c) = false.
  Proof.
    intros n e it s s1 samples values sums alphas sched Hn Is Q. unfold rf_gradient in Q.
    destruct (if existsb _ _ then _ else _) as [[] s2| | | |]; try discriminate. cbn [obind] in Q.
    destruct (on_g _ _) as [[] s3| | | |]; try discriminate. cbn [obind] in Q. destruct (g_pool (r_g s3)); try discriminate. rewrite Is in Q. cbn [rbind] in Q.
    destruct (rmap _ (r_tuners s3)) as [vs| | | |] eqn:R; try discriminate. cbn [lift] in Q. injection Q as <- <-.
    apply batch_end; auto. apply repeat_length. apply (rmap_len _ _ _ R).
    intros i t x c Ht Hx _. pose proof (rmap_nth _ _ _ _ _ _ R Ht Hx) as E. cbv beta in E.
    destruct (tuner_sum (base_alpha (r_h s3) samples) t) as [a| | | |] eqn:Ea; try discriminate. cbn [rbind] in E.
    destruct (tuner_sum (base_beta (r_h s3) e (r_g s3)) t) as [b| | | |] eqn:Eb; try discriminate. cbn [rbind] in E. injection E as <-.
    destruct (field_ok (r_h s3) e (r_g s3) samples t c a b Ea Eb) as (c' & S1 & S2). eauto.
  Qed.

  (** The two kinds of tasks of the gradient of a conditional random field. *)
  Theorem C32_conditional_alphas_partial : forall n h samples ts alfas res sums alphas sched, 1 <= n -> length res = length ts ->
    rmap (tuner_sum (base_alpha (N:=N) h samples)) ts = Ok alfas ->
    let c := gradient_threads n (alfas_code h samples) ts res sums alphas sched in
    c_ub gmemory c = false -> c_m gmemory c = MDone -> gm_res (c_mem gmemory c) = alfas /\ gm_bad (c_mem gmemory c) = false.
  Proof.
    intros n h samples ts alfas res sums alphas sched Hn L R. apply batch_end; auto. apply (rmap_len _ _ _ R).
    intros i t x c Ht Hx _. apply alfas_ok. exact (rmap_nth _ _ _ _ _ _ R Ht Hx).
  Qed.
  Theorem C32_conditional_betas_partial : forall n h e g coeff ts betas betas' sums alphas sched, 1 <= n -> length betas = length ts ->
    rmap (fun p => let* b := tuner_sum (base_beta (N:=N) h e g) (fst p) in Ok (snd p + coeff * b)%num) (combine ts betas) = Ok betas' ->
    let c := gradient_threads n (betas_code h e g coeff) ts betas sums alphas sched in
    c_ub gmemory c = false -> c_m gmemory c = MDone -> gm_res (c_mem gmemory c) = betas' /\ gm_bad (c_mem gmemory c) = false.
  Proof.
    intros n h e g coeff ts betas betas' sums alphas sched Hn L R. apply batch_end; auto. rewrite (rmap_len _ _ _ R), combine_length. lia.
    intros i t x c Ht Hx Hb. assert (Hc : nth_error (combine ts betas) i = Some (t, ce_res c)).
    { clear - Ht Hb. revert betas i Ht Hb. induction ts as [|t' ts IH]; intros [|b betas] [|i] Ht Hb; simpl in *; try discriminate; auto. congruence. }
    pose proof (rmap_nth _ _ _ _ _ _ R Hc Hx) as E. cbn [fst snd] in E. destruct (tuner_sum _ t) as [b| | | |] eqn:Eb; try discriminate. cbn [rbind] in E. injection E as <-.
    apply betas_ok; auto.
  Qed.
End P.

(** {1 Examples} *)
(** three threads that move in an irregular order compute the gradient of the field of
    P_GradientDemo.v, whose first tuner is a composite one *)
Definition rstate_of {A} (o : out (rst (N:=QcNum)) A) (d : rst (N:=QcNum)) : rst := match o with Ret _ s | Thr s => s | _ => d end.
Notation swept := (rstate_of (rf_gradient env_rev grad_set grad_state) grad_state).
Notation grad_threads := (gradient_threads 3 (field_code (r_h swept) env_rev (r_g swept) grad_samples) (r_tuners swept) (repeat n0 (length (r_tuners swept)))
  (fun _ => n1) (fun _ _ => None) (repeat 0 4 ++ flat_map (fun _ => [2; 0; 1; 1; 2]) (seq 0 60))).
Example grad_threads_done : c_ub _ grad_threads = false /\ c_m _ grad_threads = MDone.
Proof. split; vm_compute; reflexivity. Qed.
Example grad_threads_values : ranswers (rf_gradient env_rev grad_set grad_state) (gm_res (c_mem _ grad_threads)) = true /\ length (gm_res (c_mem _ grad_threads)) = 2.
Proof. split; vm_compute; reflexivity. Qed.
Example grad_threads_composite : exists l r, r_tuners swept = TComp l :: r /\ length l = 2.
Proof. vm_compute. eexists _, _. split; reflexivity. Qed.

Print Assumptions C32_gradient_schedules_partial.
Print Assumptions C32_conditional_alphas_partial.
Print Assumptions C32_conditional_betas_partial.
