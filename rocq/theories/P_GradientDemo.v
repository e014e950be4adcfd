(** Models that meet the hypotheses of the theorems on the gradient, and models
    on which the gradient is not the one of C39 *)
From Coq Require Import String List Arith Bool Lia Permutation Relations QArith Qcanon Reals.
From Verif Require Import Res Num RealNum Categoric Combs Func FuncProofs GroupProofs FactorProofs FactorApi Special SpecialProofs
  Graph GraphLemmas Clusters Belief Query GraphInv EvidInv BeliefInv BigOp Tree Cycle BPStep BPRun GraphSpec Hist P_Graph BeliefSpec Sums Exact BeliefHist Queries
  Parts JointSpec Joint Train TrainHist Coherent TrainSpec Gradient TrainInv GradientRun Likelihood P_Categoric P_Factor Demo BeliefDemo TrainDemo P_Train P_Gradient.
Import ListNotations.
Open Scope nat_scope.

Section Steady.
  Context {N : num}.
  Notation rst := (rst (N:=N)).
  Notation rop := (rop (N:=N)).
  Definition on_hiddenb (s : rst) f : bool := forallb (fun v => negb (sp_observed (spec_of (r_g s)) v)) (f_vars (r_h s f)).
  Definition steadyb (s : rst) (op : rop) : bool :=
    match op with
    | RConst _ | RTun None _ | RTun _ None => true
    | RTun (Some f) (Some _) => on_hiddenb s f
    | RWeights _ | ROnes => forallb (forallb (fun f => (length (f_vars (r_h s f)) =? 2) && on_hiddenb s f)) (tunable_clusters s)
    | RGradient _ n => 1 <=? n
    | RGraph op => simple op && match query_threads op with Some n => 1 <=? n | None => true end
    | _ => false
    end.
  Lemma on_hiddenb_ok s f : on_hiddenb s f = true -> on_hidden s f.
  Proof. unfold on_hiddenb. rewrite forallb_forall. intros Q v J. apply Q, negb_true_iff in J. exact J. Qed.
  Lemma steadyb_ok P s op : steadyb s op = true -> steady P s op.
  Proof.
    assert (K : forallb (forallb (fun f => (length (f_vars (r_h s f)) =? 2) && on_hiddenb s f)) (tunable_clusters s) = true -> tunables_hidden s).
    { rewrite forallb_forall. intros Q c f Jc Jf. apply Q in Jc. rewrite forallb_forall in Jc. apply Jc, andb_true_iff in Jf as [J1 J2].
      split. apply Nat.eqb_eq; auto. apply on_hiddenb_ok; auto. }
    destruct op as [f|f|f|cp l|[f|] [sh|]|f sh|cp l|cp cs|ws| |it n|op]; simpl; intros Q; try discriminate; split; simpl; auto.
    - apply on_hiddenb_ok; auto.
    - apply Nat.leb_le; auto.
    - apply andb_true_iff in Q as [Q _]. destruct (simple_ok (r_h s) (spec_of (r_g s)) op Q) as [Q1 Q2]. auto.
    - apply andb_true_iff in Q as [_ Q]. intros n Hn. rewrite Hn in Q. apply Nat.leb_le; auto.
  Qed.
  Fixpoint rsteady (ops : list rop) (s : rst) : bool :=
    match ops with
    | [] => true
    | op :: r => rokb op s && steadyb s op && rdone (rcall env_id op s) && rsteady r (rstep op s)
    end.
  Lemma rruns_steady h top P ops : forall s, rreach h top (steady P) s -> rsteady ops s = true -> rreach h top (steady P) (rruns s ops).
  Proof.
    induction ops as [|op ops IH]; intros s R SA; auto.
    cbn [rsteady] in SA. apply andb_true_iff in SA as [SA SB]. apply andb_true_iff in SA as [SA S2]. apply andb_true_iff in SA as [S1 S3].
    apply rokb_ok in S1. apply (steadyb_ok P) in S3.
    change (rreach h top (steady P) (rruns (rstep op s) ops)). apply IH; auto.
    unfold rstep. destruct (rcall env_id op s) eqn:Q; try discriminate S2; simpl.
    - eapply RR_ret; eauto. apply env_id_ok.
    - eapply RR_thr; eauto. apply env_id_ok.
  Qed.
End Steady.

(** {1 A tree random field over the rationals}

    A - C - D - E, with a shared weight on A - C and C - D, a weight on D, a
    constant factor on A and one on D - E; evidence on A, which the gradient drops. *)
Definition expo_of (f : func QcNum) (w : QcNum) : func QcNum := match exp_ctor f w with Ok e => e | _ => f end.
Definition gH (f : nat) : func QcNum :=
  match f with
  | 0 => expo_of (sym2 exA exC (q 2 1) (q 1 1) (q 3 1)) (q 1 2)
  | 1 => expo_of (sym2 exC exD (q 1 1) (q 4 1) (q 2 1)) (q 3 1)
  | 2 => table [exA] [([0], q 1 1); ([1], q 3 1)]
  | 3 => expo_of (table [exD] [([0], q 1 1); ([1], q 2 1)]) (q 1 1)
  | 4 => sym2 exD exE (q 1 2) (q 5 1) (q 1 1)
  | _ => expo_of (table [exA; exC] [([0; 0], q 4 1); ([0; 1], q 1 1); ([1; 0], q 2 1); ([1; 1], q 3 1)]) (q 1 1)
  end.
Lemma expo_of_built vs l w : Forall made vs -> built (expo_of (table vs l) w).
Proof.
  intros M. unfold expo_of. destruct (exp_ctor (table vs l) w) eqn:E; try (apply table_built; auto).
  eapply b_exp; [| |exact E]. apply table_built; auto. apply table_exp; auto.
Qed.
Lemma gH_built f : built (gH f).
Proof.
  do 5 (destruct f as [|f]; [first [apply expo_of_built|apply table_built]; repeat constructor; auto using exA_made, exB_made, exC_made, exD_made, exE_made|]).
  apply expo_of_built; repeat constructor; auto using exA_made, exC_made.
Qed.
Definition grad_tale : list (rop (N:=QcNum)) :=
  [RConst (Some 2); RTun (Some 0) None; RTun (Some 3) None; RConst (Some 4); RTun (Some 1) (Some [exC; exA]); RGraph (OSet exA 1)].
Notation grad_state := (rruns (r_empty gH 6) grad_tale).
Lemma grad_reach : rreach gH 6 (steady False) grad_state.
Proof. apply rruns_steady. constructor. vm_compute. reflexivity. Qed.
(** the order of the variables is A, C, D, E *)
Definition grad_set : titer := mkTI [[0; 1; 1; 0]; [1; 1; 0; 0]; [1; 0; 0; 1]] (Some [0; 2]).
Definition grad_samples : list (list nat) := [[0; 1; 1; 0]; [1; 0; 0; 1]].

Definition usable_setb {N : num} (s : rst (N:=N)) (samples : list (list nat)) : bool :=
  negb (length samples =? 0) && forallb (fun c => (length c =? length (g_vars (r_g s))) && forallb (fun p => fst p <? vsize (snd p)) (combine c (g_vars (r_g s)))) samples.
Lemma usable_setb_ok {N : num} (s : rst (N:=N)) samples : usable_setb s samples = true -> usable_set s samples.
Proof.
  unfold usable_setb, usable_set. intros Q. apply andb_true_iff in Q as [Q1 Q2]. split. { intros ->. discriminate. }
  rewrite forallb_forall in Q2. intros c J. apply Q2 in J. apply andb_true_iff in J as [J1 J2]. apply Nat.eqb_eq in J1. clear -J1 J2.
  revert J1 J2. generalize (g_vars (r_g s)). unfold valid_comb. induction c as [|a c IH]; intros [|v vs] L F; simpl in *; try discriminate; constructor.
  apply andb_true_iff in F as [F1 _]. apply Nat.ltb_lt; auto. apply andb_true_iff in F as [_ F2]. apply IH; auto.
Qed.
Lemma nodup_vars {N : num} P (s : rst (N:=N)) : coh P s -> NoDup (g_vars (r_g s)).
Proof. intros C. pose proof (ch_inv _ _ C) as [X _]. eapply NoDup_map_inv. apply (co_vars _ _ _ X). Qed.
Definition symmetric_forestb {N : num} (s : rst (N:=N)) : bool := symmetricb (r_h s) (bare s) && forestb (r_h s) (bare s).
Lemma symmetric_forestb_ok {N : num} (OK : num_ok N) P (s : rst (N:=N)) : coh P s -> symmetric_forestb s = true -> symmetric_forest s.
Proof.
  intros C Q. apply andb_true_iff in Q as [Q1 Q2]. split. apply (symmetricb_ok OK); auto. intros v _. apply (forestb_ok (r_h s)); auto. apply (nodup_vars P); auto.
Qed.

Lemma grad_coh : coh False grad_state.
Proof. apply (rreach_full False gH 6); [exact gH_built|exact grad_reach]. Qed.
Lemma grad_forest : symmetric_forest grad_state.
Proof. apply (symmetric_forestb_ok QcNum_ok False). exact grad_coh. vm_compute. reflexivity. Qed.
Lemma grad_positive : positive (weight (r_h grad_state) (bare grad_state)) (bare grad_state).
Proof. apply positiveb_ok. vm_compute. reflexivity. Qed.
Lemma grad_usable : usable_set grad_state grad_samples.
Proof. apply usable_setb_ok. vm_compute. reflexivity. Qed.
Lemma grad_iter : iter_samples grad_set = Ok grad_samples.
Proof. reflexivity. Qed.

Definition formula (s : rst (N:=QcNum)) (samples : list (list nat)) : list QcNum :=
  map (fun c => (mean (g_vars (r_g s)) samples (features (r_h s) c) - expected (weight (r_h s) (bare s)) (bare s) (features (r_h s) c))%num) (tunable_clusters s).
Definition ranswers (o : out (rst (N:=QcNum)) (list QcNum)) (l : list QcNum) : bool :=
  match o with Ret x _ => (length x =? length l) && forallb (fun p => neqb (fst p) (snd p)) (combine x l) | _ => false end.
Lemma ranswers_different o l : negb (rthrew o) && rdone o = true -> ranswers o l = false -> exists l' s', o = Ret l' s' /\ l' <> l.
Proof.
  destruct o as [x s'| | | |] eqn:E; try discriminate. intros _ Q. exists x, s'. split; auto. intros ->.
  assert (R : ranswers (Ret l s') l = true); [|rewrite R in Q; discriminate].
  unfold ranswers. rewrite Nat.eqb_refl. clear. induction l as [|a l IH]; auto.
  assert (R : neqb a a = true) by (apply (ok_eqb QcNum QcNum_ok); auto). cbn [combine forallb fst snd andb] in *. rewrite R. exact IH.
Qed.

(** the theorem applies, with two components; the model is the one at work *)
Example C39_example : exists g s', weights_gradient env_rev grad_set 2 grad_state = Ret g s' /\ length g = 2 /\ forall a, g_ev (r_g s') a = None.
Proof.
  destruct (C39_gradient_formula_partial QcNum_ok gH 6 grad_state env_rev grad_set 2 grad_samples gH_built grad_reach env_rev_ok (le_S _ _ (le_n 1))
    grad_forest grad_positive grad_iter grad_usable) as (g & s' & Q1 & Q2 & _ & _ & _ & _ & _ & Q3).
  exists g, s'. split; auto.
Qed.
Example C39_example_values : ranswers (weights_gradient env_id grad_set 1 grad_state) (formula grad_state grad_samples) = true /\
  tunable_clusters grad_state = [[0; 1]; [3]] /\ existsb (fun x => neqb x n0) (formula grad_state grad_samples) = false.
Proof. split; [|split]; vm_compute; reflexivity. Qed.

(** {1 The statement of C39 does not hold for every model} *)
(** a reachable tree random field whose gradient is not the one of the formula *)
Definition wrong_gradient (G : rst (N:=QcNum) -> rop (N:=QcNum) -> Prop) (s : rst (N:=QcNum)) : Prop :=
  exists h top e it samples n g s', (forall f, built (h f)) /\ rreach h top G s /\ env_ok e /\ 1 <= n /\
    (forall v, In v (g_vars (r_g s)) -> tree_around (r_h s) (bare s) v) /\ positive (weight (r_h s) (bare s)) (bare s) /\
    (forall a, g_ev (r_g s) a = None) /\
    iter_samples it = Ok samples /\ usable_set s samples /\
    weights_gradient e it n s = Ret g s' /\ g <> formula s samples.

Lemma wrong_gradient_intro (G : rst (N:=QcNum) -> rop (N:=QcNum) -> Prop) s samples : rreach gH 6 G s -> NoDup (g_vars (r_g s)) -> (forall a, g_ev (r_g s) a = None) ->
  forestb (r_h s) (bare s) = true -> positiveb (weight (r_h s) (bare s)) (bare s) = true -> usable_setb s samples = true ->
  (let o := weights_gradient env_id (mkTI samples None) 1 s in negb (rthrew o) && rdone o && negb (ranswers o (formula s samples))) = true -> wrong_gradient G s.
Proof.
  intros R ND NE F W U Q. apply andb_true_iff in Q as [Q1 Q2]. apply negb_true_iff in Q2.
  destruct (ranswers_different _ _ Q1 Q2) as (g & s' & E1 & E2).
  exists gH, 6, env_id, (mkTI samples None), samples, 1, g, s'.
  split; [exact gH_built|]. split; [exact R|]. split; [exact env_id_ok|]. split; [exact (le_n 1)|].
  split. { intros v _. apply (forestb_ok (r_h s)); auto. } split; [apply positiveb_ok; auto|]. split; [auto|]. split; [reflexivity|].
  split; [apply usable_setb_ok; auto|]. split; auto.
Qed.

(** a symmetric tunable factor on C, D and a constant one on A, C that is not symmetric *)
Notation lone_state := (rruns (r_empty gH 6) [RTun (Some 1) None; RConst (Some 5)]).
Theorem C39_asymmetric_refuted : exists s, wrong_gradient (steady False) s.
Proof.
  exists lone_state. apply wrong_gradient_intro with (samples := [[0; 1; 0]]).
  - apply rruns_steady. constructor. vm_compute. reflexivity.
  - vm_compute. repeat (constructor; [simpl; intuition discriminate|]). constructor.
  - intros a. vm_compute. reflexivity.
  - vm_compute. reflexivity.
  - vm_compute. reflexivity.
  - vm_compute. reflexivity.
  - vm_compute. reflexivity.
Qed.

(** a tunable factor on one variable: after a gradient and a call of [setWeights]
    the second gradient is the one of the old weights, although the factor is
    symmetric and nothing is observed *)
Notation stale_state := (rruns (r_empty gH 6) [RConst (Some 4); RTun (Some 3) None; RGradient (mkTI [[0; 0]; [1; 1]] None) 1; RWeights [q 5 1]]).
Theorem C39_stale_weights_refuted : exists s, wrong_gradient any s /\ symmetric (r_h s) (bare s).
Proof.
  exists stale_state. split. apply wrong_gradient_intro with (samples := [[0; 0]; [1; 1]]).
  - apply rruns_reach. exact (fun _ _ => Logic.I). constructor. vm_compute. reflexivity.
  - vm_compute. repeat (constructor; [simpl; intuition discriminate|]). constructor.
  - intros a. vm_compute. reflexivity.
  - vm_compute. reflexivity.
  - vm_compute. reflexivity.
  - vm_compute. reflexivity.
  - vm_compute. reflexivity.
  - apply (symmetricb_ok QcNum_ok). vm_compute. reflexivity.
Qed.

(** {1 A random field over the reals}

    The hypotheses of [C39_gradient_is_derivative_partial] are met by a correlating
    exponential factor on A and C with weight 1. *)
Section RealExample.
  Definition gAC : group := mkGroup [exA; exC] [exA; exC].
  Lemma gAC_built : built_group gAC.
  Proof. apply (bg_ctor [exA; exC]). repeat constructor; auto using exA_made, exC_made. reflexivity. Qed.
  Lemma real_factor : exists f : func RNum, built f /\ f_group f = gAC /\ f_exp f = Some 1%R /\
    forall i j, i < 2 -> j < 2 -> fimg f [i; j] = fimg f [j; i].
  Proof.
    destruct (factor_correlated_spec (N:=RNum) gAC) as [(_ & f & E & W & G & X & V)|[NC _]].
    - discriminate.
    - repeat constructor.
    - assert (B : built f) by (eapply b_corr; [exact gAC_built|exact E]).
      destruct (exp_ctor_ok f 1%R W) as (e & E' & W' & G' & X' & V'). exists e. split. eapply b_exp; eauto. split. congruence. split. auto.
      assert (VC : forall i j, i < 2 -> j < 2 -> valid_comb (sizes_of gAC) [i; j]) by (intros i j Li Lj; unfold valid_comb, sizes_of; cbn [g_soup gAC map vsize exA exC]; constructor; [exact Li|constructor; [exact Lj|constructor]]).
      intros i j Li Lj. pose proof (VC i j Li Lj) as V1. pose proof (VC j i Lj Li) as V2.
      rewrite !V' by (unfold fsizes; rewrite G; auto).
      destruct (V [i; j] V1) as [A1 A2]. destruct (V [j; i] V2) as [B1 B2].
      destruct (Nat.eq_dec i j) as [->|NE]; auto. rewrite A2, B2; auto.
      + intros Q. apply NE. symmetry. apply Q; simpl; auto.
      + intros Q. apply NE. apply Q; simpl; auto.
    - exfalso. apply NC. split. simpl; lia. intros v w [<-|[<-|[]]] [<-|[<-|[]]]; reflexivity.
  Qed.

  Definition real_state (f : func RNum) : rst (N:=RNum) := rruns (r_empty (fun _ => f) 1) [RTun (Some 0) None].
  Lemma real_steady (f : func RNum) : f_group f = gAC -> f_exp f = Some 1%R ->
    rreach (fun _ => f) 1 (steady False) (real_state f) /\ g_vars (r_g (real_state f)) = [exA; exC] /\ g_all (r_g (real_state f)) = [0] /\
    r_h (real_state f) = (fun _ => f) /\ get_weights (real_state f) = Ok [1%R].
  Proof.
    intros G X. destruct f as [g i d x]. simpl in G, X. subst g x. split.
    - apply rruns_steady. constructor. vm_compute. reflexivity.
    - split; [|split; [|split]]; vm_compute; reflexivity.
  Qed.
  Lemma real_forest (f : func RNum) : f_group f = gAC -> f_exp f = Some 1%R -> (forall i j, i < 2 -> j < 2 -> fimg f [i; j] = fimg f [j; i]) ->
    symmetric_forest (real_state f).
  Proof.
    intros G X SY. destruct (real_steady f G X) as (_ & V & A & E & _). unfold symmetric_forest, bare. rewrite V, A, E. split.
    - intros k v w (Jf & Q) _ _. assert (FV : f_vars f = [exA; exC]) by (unfold f_vars; rewrite G; reflexivity). cbn [sp_facs] in Jf.
      assert (Z : vsize v = 2 /\ vsize w = 2). { unfold fv in Q. rewrite FV in Q. destruct Q as [Q|Q]; injection Q as <- <-; auto. }
      destruct Z as [Z1 Z2]. split. congruence. rewrite Z1. intros i j Li Lj. unfold fval, transform. rewrite SY; auto.
    - intros v _. apply (forestb_ok (fun _ => f)).
      + cbn [sp_vars]. constructor; [simpl; intuition discriminate|]. constructor; [simpl; tauto|]. constructor.
      + destruct f as [g i d x]. simpl in G, X. subst g x. vm_compute. reflexivity.
  Qed.
  Example C39_real_example : exists (f : func RNum) e g s',
    weights_gradient e (mkTI [[0; 0]; [0; 1]; [1; 1]] None) 2 (real_state f) = Ret g s' /\ length g = 1 /\
    forall d, nth_error g 0 = Some d ->
      derivable_pt_lim (fun t => loglik (with_weights (fun _ => f) [[0]] [t]) (bare (real_state f)) [exA; exC] [[0; 0]; [0; 1]; [1; 1]]) 1 d.
  Proof.
    destruct real_factor as (f & B & G & X & SY). exists f, env_rev. destruct (real_steady f G X) as (RR & V & A & E & GW).
    destruct (C39_gradient_is_derivative_partial (fun _ => f) 1 (real_state f) env_rev (mkTI [[0; 0]; [0; 1]; [1; 1]] None) 2 [[0; 0]; [0; 1]; [1; 1]] [1%R])
      as (g & s' & Q1 & Q2 & Q3); auto.
    - exact env_rev_ok.
    - apply real_forest; auto.
    - apply usable_setb_ok. unfold usable_setb. rewrite V. reflexivity.
    - intros c _. rewrite E. unfold weight, bare. rewrite A. cbn [sp_facs prodL fold_right map]. apply R_ltb_spec.
      change (nltb (n:=RNum) n0 (nmul (fval f (map (val (assigned (g_vars (r_g (real_state f))) c)) (f_vars f))) n1) = true).
      apply (ok_mul RNum RNum_ok). unfold fval, transform. rewrite X. apply R_ltb_spec. apply exp_pos. apply R_ltb_spec. apply Rlt_0_1.
    - exists g, s'. split; auto. split; auto. intros d Hd. specialize (Q3 0 1%R d eq_refl Hd). rewrite V, E in Q3.
      assert (TC : tunable_clusters (real_state f) = [[0]]) by (destruct f as [fg i fd x]; simpl in G, X; subst fg x; vm_compute; reflexivity).
      rewrite TC in Q3. exact Q3.
  Qed.
End RealExample.
Print Assumptions C39_asymmetric_refuted.
Print Assumptions C39_stale_weights_refuted.
