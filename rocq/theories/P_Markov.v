(** Property C57: the distribution of the samples. The moves of the chain of the
    samples keep the distribution of the model; when no combination is impossible
    the distribution of the values found after [n] sweeps tends to it. *)
From Coq Require Import String List Arith Bool Lia Permutation Relations QArith Qcanon.
From Verif Require Import Res Num Categoric Combs Func FuncProofs GroupProofs FactorProofs FactorApi Special SpecialProofs
  Graph GraphLemmas Clusters Belief Query GraphInv EvidInv BeliefInv BigOp Tree Cycle BPStep BPRun GraphSpec Hist P_Graph BeliefSpec Sums Exact BeliefHist Queries
  Rebuild P_Belief Pool PoolProofs PoolComm P_Pool Gibbs GibbsSpec GibbsProofs GibbsChain MarkovSpec Markov P_Gibbs
  Parts JointSpec Joint P_Joint SafeSpec Safe P_Safe Train TrainHist Coherent TrainSpec Gradient TrainInv GradientRun P_Categoric P_Factor Demo BeliefDemo TrainDemo P_Train
  P_Gradient P_GradientDemo FieldHist P_Field Plan FieldSafeSpec FieldSafe P_FieldSafe SampleSafe CRF CRFHist P_CRF CRFInv P_CRFDemo CondSafeSpec CondSafe P_CondSafe.
Import ListNotations.
Open Scope nat_scope.

(** the number of sweeps between two samples, and of those discarded *)
Definition between (ceil10 : nat -> nat) (c : sctx) : nat := Nat.max 1 (match x_delta c with Some d => d | None => ceil10 (x_samples c) end).
Definition discarded (ceil10 : nat -> nat) (c : sctx) : nat := match x_transient c with Some b => b | None => 10 * between ceil10 c end.
(** no combination that agrees with the evidences is impossible *)
Definition all_possible {N : num} (F : nat -> func N) (A : spec) : Prop := forall x, possible A x -> (n0 < weight F A x)%num.

Section Core.
  Context {N : num} (OK : num_ok N).
  Variable H : nat -> func N.
  Hypothesis HG : goods H.
  Variable s : gst (N:=N).
  Hypothesis I : inv H s.
  Variable A : spec.
  Hypothesis AB : abs s A.
  Let C := proj1 I.

  Lemma core_ND : NoDup (sp_vars A).
  Proof. rewrite <- (ab_vars _ _ AB). apply (vars_NoDup H s C). Qed.
  Lemma core_LN a v c k : nth_error (sp_vars A) a = Some v -> sp_evidence A v = None -> sample_ok A c -> k < vsize v -> (n0 <= level H A c a v k)%num.
  Proof.
    intros Ha Ev Ic L. apply (good_comb_spec H s C A AB) in Ic as [IR OB]. rewrite <- (ab_vars _ _ AB) in Ha.
    assert (Ev' : g_ev s a = None) by (rewrite <- (ev_at s _ AB a v Ha); auto).
    rewrite (level_local OK H HG s C A AB) by auto. apply (local_nonneg OK H HG s C); auto.
  Qed.
  Lemma core_WN c : sample_ok A c -> (n0 <= weight H A (combine (sp_vars A) c))%num.
  Proof.
    intros Ic. apply (good_comb_spec H s C A AB) in Ic as [IR OB]. apply (prodL_nonneg OK). intros f If. rewrite <- (ab_all _ _ AB) in If. apply (factor_nonneg OK H HG s C A AB); auto.
  Qed.
  Lemma sample_possible c : sample_ok A c -> possible A (combine (sp_vars A) c).
  Proof.
    intros Ic. apply sample_nth in Ic as [L B]. split.
    - apply all_asg_In. exists c. split; auto. split; auto. intros i v m Hv Hm. destruct (B i v Hv) as [Q _]. rewrite (nth_error_nth _ _ 0 Hm) in Q. auto.
    - unfold agrees. apply forallb_forall. intros v Iv. apply In_nth_error in Iv as [a Ha]. destruct (B a v Ha) as [_ Q]. destruct (sp_evidence A v); auto. apply Nat.eqb_eq. rewrite <- Q.
      apply (val_combine _ core_ND _ a); auto. apply nth_error_nth'. rewrite L. apply nth_error_Some. congruence.
  Qed.
  Lemma core_mass : positive (weight H A) A -> mass (weight H A) A (fun _ => true) <> n0.
  Proof.
    intros P. destruct (positive_comb H s C A AB P) as (c & G & W). apply (good_comb_spec H s C A AB) in G. apply (nlt_neq' OK). rewrite (Mass_sum OK H A core_ND).
    apply (sumL_pos OK). intros x Ix. apply core_WN, samples_In; auto. exists c. split; auto. apply samples_In; auto.
  Qed.
  Lemma core_stationary l n d : incl l (hidden_positions A) -> sample_ok A d -> positive (weight H A) A ->
    sumL (fun c => probability H A c * sweeps_prob H A l n c d)%num (all_samples A) = probability H A d.
  Proof.
    intros Hl Id P. apply (stationary OK H A core_ND core_LN); auto. apply Forall_forall. auto. apply core_mass; auto.
  Qed.
  Lemma core_draws a c c' : In a (hidden_positions A) -> sample_ok A c ->
    exists lo, (n0 <= lo)%num /\ (lo + redraw_prob H A c a c' <= n1)%num /\
      forall x, (n0 < x)%num -> (x <= n1)%num -> (redraw H A c a x c' <-> (lo < x)%num /\ (x <= lo + redraw_prob H A c a c')%num).
  Proof.
    intros Ia Ic. apply hidden_In in Ia as (v & Ha & Ev). apply (redraw_interval OK H A core_LN a v); auto.
  Qed.
  Lemma core_limit : all_possible H A -> exists rho : N, (n0 <= rho)%num /\ (rho < n1)%num /\
    forall visit, Permutation visit (hidden_positions A) -> forall n c P, sample_ok A c ->
      (sweeps_event H A visit n c P <= event H A P + npow rho n)%num /\
      (event H A P <= sweeps_event H A visit n c P + npow rho n)%num.
  Proof.
    intros AP. apply (converges OK H A core_ND core_LN core_WN). intros c Ic. apply AP, sample_possible; auto.
  Qed.
  Lemma core_samples draw e ceil10 c threads : env_ok e -> 1 <= threads -> g_pool s = Some 1 -> positive (weight H A) A ->
    exists samples s' visit, make_samples H draw e ceil10 c threads s = Ret samples s' /\ Permutation (map fst visit) (hidden_positions A) /\
      gibbs_chain H draw A visit (discarded ceil10 c) (between ceil10 c) samples.
  Proof.
    intros E L PO P. destruct (make_samples_ok OK H HG s C A AB draw (proj2 I) P e ceil10 c threads E PO L) as (out & s' & v & Q & K & PO' & Ln & Fo & PV & TV & G).
    exists out, s', v. splits; auto.
  Qed.
  Lemma first_ok : (exists c, sample_ok A c) -> sample_ok A (first_values A).
  Proof.
    intros [c Ic]. unfold sample_ok, first_values in *. remember (sp_vars A) as vs. clear Heqvs. induction Ic as [|v k vs c [K1 K2] _ IH]; simpl; constructor; auto.
    destruct (sp_evidence A v); split; auto; lia.
  Qed.
End Core.

Section Graphs.
  Context {N : num} (OK : num_ok N).
  Variable H : nat -> func N.
  Hypothesis HB : forall f, built (H f).
  Notation gst := (gst (N:=N)).
  Implicit Types s : gst.
  Local Notation HGd := (built_goods OK H HB).
  Local Notation HSd := (built_solids H HB).
  Notation model := (sp_run (fvars H)).

  (** [redraw_prob] is the probability of the moves of the chain when the number
      drawn is uniform in (0,1]: the numbers that lead to [c'] are an interval of
      that length *)
  Theorem C57_draws : forall ops s a c c', reach H no_failed_removal ops s -> In a (hidden_positions (model ops)) -> sample_ok (model ops) c ->
    exists lo, (n0 <= lo)%num /\ (lo + redraw_prob H (model ops) c a c' <= n1)%num /\
      forall x, (n0 < x)%num -> (x <= n1)%num ->
        (redraw H (model ops) c a x c' <-> (lo < x)%num /\ (x <= lo + redraw_prob H (model ops) c a c')%num).
  Proof.
    intros ops s a c c' R. destruct (reach_abs H HSd no_failed_removal ops s (fun _ _ h => h) R) as [I AB]. apply (core_draws OK H HGd s I _ AB).
  Qed.
  (** if the combination is distributed as the model says, it still is after any
      number of sweeps, in any order of the variables *)
  Theorem C57_stationary : forall ops s order n c', reach H no_failed_removal ops s -> positive (weight H (model ops)) (model ops) ->
    incl order (hidden_positions (model ops)) -> sample_ok (model ops) c' ->
    sumL (fun c => probability H (model ops) c * sweeps_prob H (model ops) order n c c')%num (all_samples (model ops)) = probability H (model ops) c'.
  Proof.
    intros ops s l n d R P Il Id. destruct (reach_abs H HSd no_failed_removal ops s (fun _ _ h => h) R) as [I AB]. apply (core_stationary OK H HGd s I _ AB); auto.
  Qed.
  (** Full property: the distribution of the samples tends to that of the model
      when the number of discarded sweeps grows. Proved for the models where no
      combination is impossible ([C57_convergence_refuted] below). The distance is
      at most [rho] to the power of the number of sweeps, for all the events; [rho]
      depends on the model only, not on the orders, the numbers of threads and the
      numbers drawn. *)
  Theorem C57_convergence_partial : forall ops s, reach H no_failed_removal ops s -> g_pool s = Some 1 -> (exists c, sample_ok (model ops) c) -> all_possible H (model ops) ->
    exists rho : N, (n0 <= rho)%num /\ (rho < n1)%num /\
    forall draw e ceil10 ctx threads, env_ok e -> 1 <= threads ->
    exists samples s' visit, make_samples H draw e ceil10 ctx threads s = Ret samples s' /\
      Permutation (map fst visit) (hidden_positions (model ops)) /\
      gibbs_chain H draw (model ops) visit (discarded ceil10 ctx) (between ceil10 ctx) samples /\
      forall n P, let reached := sweeps_event H (model ops) (map fst visit) n (first_values (model ops)) P in
        (reached <= event H (model ops) P + npow rho n)%num /\ (event H (model ops) P <= reached + npow rho n)%num.
  Proof.
    intros ops s R PO [c0 Ic0] AP. destruct (reach_abs H HSd no_failed_removal ops s (fun _ _ h => h) R) as [I AB].
    destruct (core_limit OK H HGd s I _ AB AP) as (rho & P0 & P1 & L). exists rho. split; auto. split; auto. intros draw e ceil10 ctx n E Ln.
    destruct (core_samples OK H HGd s I _ AB draw e ceil10 ctx n E Ln PO) as (out & s' & v & Q & PV & G).
    { exists (combine (sp_vars (model ops)) c0). pose proof (sample_possible H s I _ AB c0 Ic0). split; auto. }
    exists out, s', v. splits; auto. intros k P. apply L; auto. apply first_ok. eauto.
  Qed.
End Graphs.

Section Fields.
  Context {N : num} (OK : num_ok N).
  Notation rst := (rst (N:=N)).
  Notation crf := (crf (N:=N)).
  Implicit Types s : rst.
  (** the same for random fields *)
  Theorem C57_field_convergence_partial : forall h top s, (forall f, built (h f)) -> rreach h top rsafe s ->
    (exists c, sample_ok (spec_of (r_g s)) c) -> all_possible (r_h s) (spec_of (r_g s)) ->
    exists rho : N, (n0 <= rho)%num /\ (rho < n1)%num /\
    forall draw e ceil10 ctx threads, env_ok e -> 1 <= threads ->
    exists samples s' visit, on_g (make_samples (r_h s) draw e ceil10 ctx threads) s = Ret samples s' /\
      Permutation (map fst visit) (hidden_positions (spec_of (r_g s))) /\
      gibbs_chain (r_h s) draw (spec_of (r_g s)) visit (discarded ceil10 ctx) (between ceil10 ctx) samples /\
      forall n P, let reached := sweeps_event (r_h s) (spec_of (r_g s)) (map fst visit) n (first_values (spec_of (r_g s))) P in
        (reached <= event (r_h s) (spec_of (r_g s)) P + npow rho n)%num /\ (event (r_h s) (spec_of (r_g s)) P <= reached + npow rho n)%num.
  Proof.
    intros h top s Hb R [c0 Ic0] AP. destruct (rreach_fin h top s Hb R) as [F [PO _]]. pose proof (fl_coh _ _ F) as C. pose proof (coh_abs True s C) as AB. pose proof (ch_inv _ _ C) as I.
    pose proof (coh_good OK True s C) as HG.
    destruct (core_limit OK (r_h s) HG (r_g s) I _ AB AP) as (rho & P0 & P1 & L). exists rho. split; auto. split; auto. intros draw e ceil10 ctx n E Ln.
    destruct (core_samples OK (r_h s) HG (r_g s) I _ AB draw e ceil10 ctx n E Ln PO) as (out & s' & v & Q & PV & G).
    { exists (combine (sp_vars (spec_of (r_g s))) c0). pose proof (sample_possible (r_h s) (r_g s) I _ AB c0 Ic0). split; auto. }
    unfold on_g. rewrite Q. exists out, (set_g s s'), v. splits; auto. intros k P. apply L; auto. apply first_ok. eauto.
  Qed.
  (** and for conditional random fields *)
  Theorem C57_conditional_convergence_partial : forall (c : crf), proper false c ->
    let s := c_r c in
    (exists c, sample_ok (spec_of (r_g s)) c) -> all_possible (r_h s) (spec_of (r_g s)) ->
    exists rho : N, (n0 <= rho)%num /\ (rho < n1)%num /\
    forall draw e ceil10 ctx threads, env_ok e -> 1 <= threads ->
    exists samples s' visit, on_g (make_samples (r_h s) draw e ceil10 ctx threads) s = Ret samples s' /\
      Permutation (map fst visit) (hidden_positions (spec_of (r_g s))) /\
      gibbs_chain (r_h s) draw (spec_of (r_g s)) visit (discarded ceil10 ctx) (between ceil10 ctx) samples /\
      forall n P, let reached := sweeps_event (r_h s) (spec_of (r_g s)) (map fst visit) n (first_values (spec_of (r_g s))) P in
        (reached <= event (r_h s) (spec_of (r_g s)) P + npow rho n)%num /\ (event (r_h s) (spec_of (r_g s)) P <= reached + npow rho n)%num.
  Proof.
    intros c R s [c0 Ic0] AP. destruct (proper_lives false c R) as (CL & [PO _] & _). destruct (clives_full false c CL) as [C _ _]. simpl in C. fold s in C, PO.
    pose proof (coh_abs True s C) as AB. pose proof (ch_inv _ _ C) as I. pose proof (coh_good OK True s C) as HG.
    destruct (core_limit OK (r_h s) HG (r_g s) I _ AB AP) as (rho & P0 & P1 & L). exists rho. split; auto. split; auto. intros draw e ceil10 ctx n E Ln.
    destruct (core_samples OK (r_h s) HG (r_g s) I _ AB draw e ceil10 ctx n E Ln PO) as (out & s' & v & Q & PV & G).
    { exists (combine (sp_vars (spec_of (r_g s))) c0). pose proof (sample_possible (r_h s) (r_g s) I _ AB c0 Ic0). split; auto. }
    unfold on_g. rewrite Q. exists out, (set_g s s'), v. splits; auto. intros k P. apply L; auto. apply first_ok. eauto.
  Qed.
End Fields.

(** {1 Finding} *)
(** two variables joined by a factor built by the library as "simply correlated":
    the values 0, 0 and 1, 1 are equally probable, but the samples never leave the
    first one, whatever the numbers drawn (0 excluded), the iteration orders, the
    threads, the numbers of samples and of discarded sweeps *)
Definition kH (f : nat) : func QcNum := match factor_correlated (demo_group [exA; exC]) with Ok f => f | _ => func_ctor (demo_group [exA; exC]) end.
Lemma kH_built f : built (kH f).
Proof.
  unfold kH. assert (B : built_group (demo_group [exA; exC])) by (apply demo_group_built; constructor; [apply exA_made|constructor; [apply exC_made|constructor]]).
  destruct (factor_correlated (demo_group [exA; exC])) eqn:E; try (apply b_ctor; exact B). eapply b_corr; eauto.
Qed.
Definition k_tale : list gop := [OAdd (Some 0)].
Notation k_model := (sp_run (fvars kH) k_tale).
Lemma k_reach : reach kH no_failed_removal k_tale (runs kH k_tale).
Proof.
  eapply reach_weaken; [|apply (properly_reach kH k_tale); vm_compute; reflexivity]. intros A op [Q _]. exact Q.
Qed.
Lemma k_stuck a x c : In a (hidden_positions k_model) -> (n0 < x)%num -> (x <= n1)%num -> redraw kH k_model [0; 0] a x c -> c = [0; 0].
Proof.
  intros Ia P L (v & k & Ha & Lk & -> & _ & S). assert (HP : hidden_positions k_model = [0; 1]) by (vm_compute; reflexivity). rewrite HP in Ia.
  assert (V : vsize v = 2 /\ neqb (sumL (level kH k_model [0; 0] a v) (seq 0 (vsize v))) n0 = false /\ neqb (conditional kH k_model [0; 0] a v 0) n1 = true).
  { destruct Ia as [<-|[<-|[]]]; vm_compute in Ha; injection Ha as <-; (split; [reflexivity|]); split; vm_compute; reflexivity. }
  destruct V as (V1 & V2 & V3). apply (neqb_false QcNum_ok) in V2. apply (ok_eqb _ QcNum_ok) in V3. destruct (S V2) as (_ & B & _).
  assert (K : k = 0). { destruct k as [|[|k]]; auto; [|lia]. exfalso. destruct B as [B|B]; [discriminate|]. unfold sumL, seq, fold_right in B. rewrite V3 in B.
    assert (Q : (n1 + n0)%num = (n1 : QcNum)) by (apply (ok_eqb _ QcNum_ok); vm_compute; reflexivity). rewrite Q in B. congruence. }
  subst k. destruct Ia as [<-|[<-|[]]]; reflexivity.
Qed.
Section Stuck.
  Variable draw : nat -> nat -> QcNum.
  Hypothesis D : forall t i, (n0 < draw t i)%num /\ (draw t i <= n1)%num.
  Lemma k_visits l : forall st st', incl (map fst l) (hidden_positions k_model) -> fst st = [0; 0] -> visits kH draw k_model l st st' -> fst st' = [0; 0].
  Proof.
    induction l as [|[a t] l IH]; intros st st' I E V; simpl in V. subst; auto.
    destruct V as (c & R & V). apply (IH (c, used (snd st) t)); auto. intros b Ib. apply I. right; auto.
    simpl. rewrite E in R. eapply k_stuck; eauto. apply I. left; auto. apply D. apply D.
  Qed.
  Lemma k_sweeps l n : forall st st', incl (map fst l) (hidden_positions k_model) -> fst st = [0; 0] -> sweeps kH draw k_model l n st st' -> fst st' = [0; 0].
  Proof.
    induction n as [|n IH]; intros st st' I E V; simpl in V. subst; auto. destruct V as (st1 & V & W). apply (IH st1 st'); auto. apply (k_visits l st st1); auto.
  Qed.
  Lemma k_chain l delta out : forall st, incl (map fst l) (hidden_positions k_model) -> fst st = [0; 0] -> chain kH draw k_model l delta out st -> Forall (fun c => c = [0; 0]) out.
  Proof.
    induction out as [|c out IH]; intros st I E V; constructor; destruct V as [V1 (st' & V2 & V3)]. congruence. apply (IH st'); auto. eapply k_sweeps; eauto.
  Qed.
End Stuck.
Theorem C57_convergence_refuted : exists (H : nat -> func QcNum) ops s, (forall f, built (H f)) /\ reach H no_failed_removal ops s /\ g_pool s = Some 1 /\
  let A := sp_run (fvars H) ops in
  probability H A [0; 0] = q 1 2 /\ probability H A [1; 1] = q 1 2 /\
  forall draw e ceil10 ctx threads, (forall t i, (n0 < draw t i)%num /\ (draw t i <= n1)%num) -> env_ok e -> 1 <= threads ->
    exists samples s', make_samples H draw e ceil10 ctx threads s = Ret samples s' /\ length samples = x_samples ctx /\ Forall (fun c => c = [0; 0]) samples.
Proof.
  exists kH, k_tale, (runs kH k_tale). split. exact kH_built. split. exact k_reach. split. vm_compute; reflexivity. cbn zeta.
  split. apply (ok_eqb _ QcNum_ok). vm_compute. reflexivity. split. apply (ok_eqb _ QcNum_ok). vm_compute. reflexivity.
  intros draw e ceil10 ctx n D E L. assert (P : positive (weight kH k_model) k_model) by (apply positiveb_ok; vm_compute; reflexivity).
  assert (PO : g_pool (runs kH k_tale) = Some 1) by (vm_compute; reflexivity).
  destruct (C36_chain QcNum_ok kH kH_built k_tale _ draw e ceil10 ctx n k_reach PO E L P) as (out & s' & v & Q & PV & _ & (st & G1 & G2)).
  destruct (C34_samples QcNum_ok kH kH_built k_tale _ draw e ceil10 ctx n k_reach PO E L P) as (out' & s'' & Q' & Ln & _). rewrite Q in Q'. injection Q' as <- <-.
  exists out, s'. split; auto. split; auto.
  assert (I : incl (map fst v) (hidden_positions k_model)) by (intros a Ia; eapply Permutation_in; eauto).
  eapply (k_chain draw D v _ out st I); [|exact G2]. eapply (k_sweeps draw D v); [exact I| |exact G1]. reflexivity.
Qed.

(** {1 Examples} *)
Definition all_possibleb {N : num} (F : nat -> func N) (A : spec) : bool := forallb (fun x => negb (agrees A x) || nltb n0 (weight F A x)) (all_asg (sp_vars A)).
Lemma all_possibleb_ok {N : num} (F : nat -> func N) A : all_possibleb F A = true -> all_possible F A.
Proof.
  unfold all_possibleb. rewrite forallb_forall. intros Q x [Ix Ag]. specialize (Q x Ix). rewrite Ag in Q. exact Q.
Qed.
Definition sampleb (A : spec) (c : list nat) : bool := existsb (MarkovSpec.same c) (all_samples A).
Lemma sampleb_ok A c : sampleb A c = true -> sample_ok A c.
Proof. unfold sampleb. rewrite existsb_exists. intros (d & I & Q). apply same_spec in Q. subst. apply samples_In. auto. Qed.

Example C57_ring : (exists c, sample_ok (bmodel loop_tale) c) /\ all_possible bH (bmodel loop_tale) /\ incl [3; 0; 2; 1] (hidden_positions (bmodel loop_tale)).
Proof.
  split. { exists [1; 0; 1; 0]. apply sampleb_ok. vm_compute. reflexivity. } split. apply all_possibleb_ok. vm_compute. reflexivity.
  rewrite ring_hidden. intros a I. simpl in *. intuition.
Qed.
Example C57_ring_convergence : exists rho : QcNum, (n0 <= rho)%num /\ (rho < n1)%num /\
  forall draw e ceil10 ctx threads, env_ok e -> 1 <= threads ->
  exists samples s' visit, make_samples bH draw e ceil10 ctx threads (runs bH loop_tale) = Ret samples s' /\
    Permutation (map fst visit) (hidden_positions (bmodel loop_tale)) /\
    gibbs_chain bH draw (bmodel loop_tale) visit (discarded ceil10 ctx) (between ceil10 ctx) samples /\
    forall n P, let reached := sweeps_event bH (bmodel loop_tale) (map fst visit) n (first_values (bmodel loop_tale)) P in
      (reached <= event bH (bmodel loop_tale) P + npow rho n)%num /\ (event bH (bmodel loop_tale) P <= reached + npow rho n)%num.
Proof. exact (C57_convergence_partial QcNum_ok bH bH_built loop_tale (runs bH loop_tale) loop_tale_reach' ring_pool (proj1 C57_ring) (proj1 (proj2 C57_ring))). Qed.
(** a probability after two sweeps, near that of the model *)
Notation two_model := (bmodel [OAdd (Some 0); OAdd (Some 2)]).
Definition near (x y d : QcNum) : bool := nltb (x - y)%num d && nltb (y - x)%num d.
Example C57_values :
  neqb (sweeps_event bH two_model (hidden_positions two_model) 0 (first_values two_model) (takes exA 1)) n0 = true /\
  near (sweeps_event bH two_model (hidden_positions two_model) 2 (first_values two_model) (takes exA 1)) (event bH two_model (takes exA 1)) (q 1 10) = true.
Proof. split; vm_compute; reflexivity. Qed.
Example C57_draws_example : In 1 (hidden_positions (bmodel loop_tale)) /\ sample_ok (bmodel loop_tale) [1; 0; 1; 0] /\ nltb n0 (redraw_prob bH (bmodel loop_tale) [1; 0; 1; 0] 1 [1; 1; 1; 0]) = true.
Proof. split. rewrite ring_hidden. simpl; auto. split. apply sampleb_ok. vm_compute. reflexivity. vm_compute. reflexivity. Qed.
Example C57_field_example : (exists c, sample_ok (spec_of (r_g rsafe_state)) c) /\ all_possible (r_h rsafe_state) (spec_of (r_g rsafe_state)).
Proof. split. { exists (first_values (spec_of (r_g rsafe_state))). apply sampleb_ok. vm_compute. reflexivity. } apply all_possibleb_ok. vm_compute. reflexivity. Qed.
Example C57_conditional_example : (exists c, sample_ok (spec_of (r_g (c_r (snd cond_state)))) c) /\ all_possible (r_h (c_r (snd cond_state))) (spec_of (r_g (c_r (snd cond_state)))).
Proof. split. { exists (first_values (spec_of (r_g (c_r (snd cond_state))))). apply sampleb_ok. vm_compute. reflexivity. } apply all_possibleb_ok. vm_compute. reflexivity. Qed.

Print Assumptions C57_draws.
Print Assumptions C57_stationary.
Print Assumptions C57_convergence_partial.
Print Assumptions C57_field_convergence_partial.
Print Assumptions C57_conditional_convergence_partial.
Print Assumptions C57_convergence_refuted.
