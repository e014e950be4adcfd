(** Conditional random fields that meet the hypotheses of the theorems C40, C41 and
    C50, and fields on which the statements do not hold *)
From Coq Require Import String List Arith Bool Lia Permutation QArith Qcanon Qround ZArith.
From Verif Require Import Res Num Categoric Combs Func FuncProofs GroupProofs FactorProofs FactorApi Special SpecialProofs
  Graph GraphLemmas Clusters Belief Query Gibbs GraphInv EvidInv BeliefInv BPRun GraphSpec Hist P_Categoric P_Factor P_Graph Train TrainHist Coherent CRF CRFHist
  Demo BeliefDemo TrainDemo P_Train P_Gibbs P_GradientDemo P_CRF.
Import ListNotations.
Open Scope nat_scope.

(** the integer part of a rational *)
Definition qfloor (x : QcNum) : nat := Z.to_nat (Qfloor (this x)).
Lemma nofnat_Q n : Qeq (this (nofnat n : QcNum)) (inject_Z (Z.of_nat n)).
Proof.
  induction n as [|n IH]. reflexivity. cbn [nofnat]. change (Qeq (Qred (1 + this (nofnat n : QcNum))) (inject_Z (Z.of_nat (S n)))).
  rewrite Qred_correct, IH, Nat2Z.inj_succ. unfold Z.succ. rewrite inject_Z_plus. ring.
Qed.
Lemma QcNum_lt (x y : QcNum) : nltb x y = true <-> Qlt (this x) (this y).
Proof. apply Qc_ltb_spec. Qed.
Lemma QcNum_le (x y : QcNum) : nltb y x = false <-> Qle (this x) (this y).
Proof.
  change (nltb y x) with (negb (Qle_bool (this x) (this y))). rewrite negb_false_iff. apply Qle_bool_iff.
Qed.
Lemma qfloor_ok : rounds_down (N:=QcNum) qfloor.
Proof.
  intros x P. apply QcNum_le in P. unfold qfloor.
  assert (Z0 : (0 <= Qfloor (this x))%Z). { change 0%Z with (Qfloor 0). apply Qfloor_resp_le. exact P. }
  assert (E : Qeq (this (nofnat (Z.to_nat (Qfloor (this x))) : QcNum)) (inject_Z (Qfloor (this x)))) by (rewrite nofnat_Q, Z2Nat.id; auto; reflexivity).
  split.
  - apply QcNum_le. rewrite E. apply Qfloor_le.
  - apply QcNum_lt. change (Qlt (this x) (Qred (this (nofnat (Z.to_nat (Qfloor (this x))) : QcNum) + 1))). rewrite Qred_correct, E.
    pose proof (Qlt_floor (this x)) as L. rewrite inject_Z_plus in L. exact L.
Qed.
Example C42_rounds_down : exists it samples, iter_ctor qfloor (fun k => 2 * k) [[0; 1]; [1; 1]; [0; 0]; [1; 0]] (q 3 5) = Ok it /\ iter_samples it = Ok samples /\ length samples = 2.
Proof. eexists _, _. split; [|split]; vm_compute; reflexivity. Qed.

(** A - B and C - A, with B of size 3, and a factor on A; B and C are observed *)
Definition cH (f : nat) : func QcNum :=
  match f with
  | 0 => expo_of (table [exA; exB] [([0; 0], q 1 1); ([0; 1], q 2 1); ([0; 2], q 1 1); ([1; 0], q 4 1); ([1; 1], q 1 1); ([1; 2], q 5 1)]) (q 1 2)
  | 1 => expo_of (table [exC; exA] [([0; 0], q 3 1); ([0; 1], q 1 1); ([1; 0], q 2 1); ([1; 1], q 7 1)]) (q 2 1)
  | _ => table [exA] [([0], q 1 1); ([1], q 3 1)]
  end.
Lemma cH_built f : built (cH f).
Proof.
  do 2 (destruct f as [|f]; [apply expo_of_built; repeat constructor; auto using exA_made, exB_made, exC_made|]).
  apply table_built; repeat constructor; auto using exA_made.
Qed.
Definition crf_tale : list (rop (N:=QcNum)) :=
  [RConst (Some 2); RTun (Some 0) None; RTun (Some 1) None; RGraph (OSet exB 0); RGraph (OSet exC 1)].
Notation crf_field := (rruns (r_empty cH 3) crf_tale).
Lemma crf_field_reach : rreach cH 3 any crf_field.
Proof. apply rruns_reach. intros; exact Logic.I. constructor. vm_compute. reflexivity. Qed.
Definition crf_of (o : out (rst (N:=QcNum)) (crf (N:=QcNum))) : crf := match o with Ret c _ => c | _ => mkC (r_empty cH 0) [] end.
Definition demo_crf : crf := crf_of (crf_ctor env_id crf_field true).
Lemma demo_crf_made : exists s, crf_ctor env_id crf_field true = Ret demo_crf s.
Proof.
  assert (X : rdone (crf_ctor env_id crf_field true) && negb (rthrew (crf_ctor env_id crf_field true)) = true) by (vm_compute; reflexivity).
  unfold demo_crf, crf_of. destruct (crf_ctor env_id crf_field true) as [c s|s| | |]; try discriminate. eauto.
Qed.
Lemma demo_crf_reach : creach demo_crf.
Proof. destruct demo_crf_made as [s Q]. eapply CR_field; [apply cH_built|apply crf_field_reach|apply env_id_ok|exact Q]. Qed.

(** the set of the observed variables is visited in another order than the map *)
Definition env_set : env := mkEnv (fun t l => if t =? 4 then rev l else l) (fun _ l => l).
Lemma env_set_ok : env_ok env_set.
Proof. split; intros t l; simpl. destruct (t =? 4). apply Permutation_sym, Permutation_rev. apply Permutation_refl. apply Permutation_refl. Qed.

Example demo_orders : observed_variables env_id (graph_of demo_crf) = [exB; exC] /\ observed_order env_id (graph_of demo_crf) = [exB; exC] /\
  observed_variables env_set (graph_of demo_crf) = [exB; exC] /\ observed_order env_set (graph_of demo_crf) = [exC; exB].
Proof. splits; vm_compute; reflexivity. Qed.

(** {1 C40} *)
Lemma exC_at a : nth_error [exA; exB; exC] a = Some exC -> a = 2.
Proof. do 3 (destruct a as [|a]; [try discriminate; auto|]). destruct a; discriminate. Qed.
Lemma fit2 (vs : list var) values : forallb (fun p => snd p <? vsize (fst p)) (combine vs values) = true ->
  forall k v x, nth_error vs k = Some v -> nth_error values k = Some x -> x < vsize v.
Proof.
  intros F k v x Hv Hx. rewrite forallb_forall in F. apply Nat.ltb_lt. apply (F (v, x)). eapply nth_error_In. eapply nth_combine; eauto.
Qed.
Example C40_example : exists s', set_evidences env_id [2; 0] (c_r demo_crf) = Ret tt s' /\ evidence (r_g s') exB 2 /\ evidence (r_g s') exC 0 /\ hidden (r_g s') exA.
Proof.
  destruct (C40_same_order demo_crf env_id [2; 0] demo_crf_reach env_id_ok) as (s' & Q & M & F).
  - vm_compute. reflexivity.
  - vm_compute. reflexivity.
  - apply fit2. vm_compute. reflexivity.
  - exists s'. destruct demo_orders as (_ & O & _). rewrite O in F. splits; auto. apply (F 0); auto. apply (F 1); auto.
    apply M. split. vm_compute; auto. intros k (a & Ha & X). revert Ha X. do 3 (destruct a as [|a]; [vm_compute; congruence|]). intros Ha. exfalso.
    assert (Z : S (S (S a)) < 3). { change 3 with (length (g_vars (r_g (c_r demo_crf)))). apply nth_error_Some. congruence. } lia.
Qed.
Example C40_wrong_size_example : set_evidences env_id [2] (c_r demo_crf) = Thr (c_r demo_crf).
Proof. apply (C40_wrong_size demo_crf env_id [2] demo_crf_reach env_id_ok). vm_compute. discriminate. Qed.
Example C40_wrong_value_example : exists s', set_evidences env_id [1; 2] (c_r demo_crf) = Thr s' /\ evidence (r_g s') exB 1 /\ evidence (r_g s') exC 1.
Proof.
  destruct demo_orders as (O & _).
  destruct (C40_wrong_value demo_crf env_id [1; 2] 1 exC 2 demo_crf_reach env_id_ok) as (s' & Q & _ & F1 & F2); rewrite ?O; auto.
  - intros [|k] v x L; [|lia]. simpl. intros [= <-] [= <-]. vm_compute. auto.
  - exists s'. rewrite O in *. splits; auto. apply (F1 0); auto. apply (F2 1); auto. exists 2. split; vm_compute; reflexivity.
Qed.
(** The documented order is the one of [getObservedVariables()]: here the two values
    fit, the call returns, and each variable gets the value meant for the other. *)
Theorem C40_order_refuted : exists (c : crf (N:=QcNum)) e values s' k v x, creach c /\ env_ok e /\ let vs := observed_order e (graph_of c) in
  length values = length vs /\ (forall k v x, nth_error vs k = Some v -> nth_error values k = Some x -> x < vsize v) /\
  set_evidences e values (c_r c) = Ret tt s' /\
  nth_error vs k = Some v /\ nth_error values k = Some x /\ ~ evidence (r_g s') v x.
Proof.
  destruct demo_orders as (_ & _ & OV & OS).
  destruct (C40_sets_partial demo_crf env_set [0; 1] demo_crf_reach env_set_ok) as (s' & Q & M & F); rewrite ?OV; auto.
  { apply fit2. vm_compute. reflexivity. }
  exists demo_crf, env_set, [0; 1], s', 0, exC, 0. cbv zeta. rewrite OS.
  split; [exact demo_crf_reach|]. split; [exact env_set_ok|]. split; [reflexivity|]. split; [|split; [exact Q|split; [reflexivity|split; [reflexivity|]]]].
  - apply fit2. vm_compute. reflexivity.
  - rewrite OV in F. specialize (F 1 exC 1 eq_refl eq_refl). intros (a & Ha & Ea). destruct F as (b & Hb & Eb).
    assert (EV : g_vars (r_g s') = [exA; exB; exC]). { destruct M as (_ & _ & _ & _ & -> & _). vm_compute. reflexivity. }
    rewrite EV in Ha, Hb. apply exC_at in Ha. apply exC_at in Hb. rewrite Ha in Ea. rewrite Hb in Eb. rewrite Ea in Eb. injection Eb. intros X. inversion X.
Qed.
Print Assumptions C40_order_refuted.

(** {1 C41} *)
Definition cdraws (n t i : nat) : QcNum := draws (n + t) i.
Definition cctx : sctx := mkCtx 2 (Some 1) (Some 1).
Definition csamples (o : out (rst (N:=QcNum)) (list (list nat))) : option (list (list nat)) := match o with Ret l _ => Some l | _ => None end.
Definition is_undef {B} (o : out (rst (N:=QcNum)) B) : bool := match o with Undef => true | _ => false end.
(** two samples of A for each of the six combinations of B and C *)
Example C41_example_all : option_map (map (@tl nat)) (csamples (make_crf_train_set cdraws qfloor (fun n => n) env_id (fun _ => env_id) cctx n1 1 (c_r demo_crf))) =
  Some [[0; 0]; [0; 0]; [0; 1]; [0; 1]; [1; 0]; [1; 0]; [1; 1]; [1; 1]; [2; 0]; [2; 0]; [2; 1]; [2; 1]].
Proof. vm_compute. reflexivity. Qed.
(** half of them: the combinations 0, 2 and 4 *)
Example C41_example_half : option_map (map (@tl nat)) (csamples (make_crf_train_set cdraws qfloor (fun n => n) env_id (fun _ => env_id) cctx (q 1 2) 1 (c_r demo_crf))) =
  Some [[0; 0]; [0; 0]; [1; 0]; [1; 0]; [2; 0]; [2; 0]].
Proof. vm_compute. reflexivity. Qed.
Example C41_example_hypotheses : rounds_down (N:=QcNum) qfloor /\ creach demo_crf /\ (n0 <= q 1 2)%num /\ (q 1 2 < n1)%num /\
  (n1 <= nofnat (length (all_combs (map vsize (observed_order env_id (graph_of demo_crf))))) * q 1 2)%num.
Proof. splits. exact qfloor_ok. exact demo_crf_reach. all: vm_compute; reflexivity. Qed.
(** A percentage in (0, 1]: a division by zero. *)
Theorem C41_division_refuted : exists (c : crf (N:=QcNum)) draw e es ctx p threads, creach c /\ env_ok e /\ (forall k, env_ok (es k)) /\
  (n0 < p)%num /\ (p <= n1)%num /\ make_crf_train_set draw qfloor (fun n => n) e es ctx p threads (c_r c) = Undef.
Proof.
  exists demo_crf, cdraws, env_id, (fun _ => env_id), cctx, (q 1 10), 1. split; [exact demo_crf_reach|]. split; [exact env_id_ok|]. split; [intros k; exact env_id_ok|]. splits; vm_compute; reflexivity.
Qed.
(** The combinations are made in the order of [getObservedVariables()], and given to
    [setEvidences], which follows the other: with variables of different sizes the
    call throws, with percentage 1 and values that are all valid. *)
Theorem C41_order_refuted : exists (c : crf (N:=QcNum)) draw e ctx threads s', creach c /\ env_ok e /\
  make_crf_train_set draw qfloor (fun n => n) e (fun _ => e) ctx n1 threads (c_r c) = Thr s' /\
  exists l s'', make_crf_train_set draw qfloor (fun n => n) env_id (fun _ => env_id) ctx n1 threads (c_r c) = Ret l s''.
Proof.
  exists demo_crf, cdraws, env_set, cctx, 1.
  assert (X : rthrew (make_crf_train_set cdraws qfloor (fun n => n) env_set (fun _ => env_set) cctx n1 1 (c_r demo_crf)) = true) by (vm_compute; reflexivity).
  assert (Y : csamples (make_crf_train_set cdraws qfloor (fun n => n) env_id (fun _ => env_id) cctx n1 1 (c_r demo_crf)) <> None) by (vm_compute; discriminate).
  destruct (make_crf_train_set cdraws qfloor (fun n => n) env_set (fun _ => env_set) cctx n1 1 (c_r demo_crf)) as [|s'| | |]; try discriminate.
  destruct (make_crf_train_set cdraws qfloor (fun n => n) env_id (fun _ => env_id) cctx n1 1 (c_r demo_crf)) as [l s''| | | |]; try (exfalso; apply Y; reflexivity).
  exists s'. split; [exact demo_crf_reach|]. split; [exact env_set_ok|]. split; [reflexivity|]. exists l, s''. reflexivity.
Qed.
Print Assumptions C41_order_refuted.

(** {1 C50} *)
Lemma rafter_done {B} d (o : out (rst (N:=QcNum)) B) : rdone o = true -> match o with Ret _ s' | Thr s' => rafter d o = s' | _ => False end.
Proof. destruct o; simpl; try discriminate; auto. Qed.
Example C50_example : exists c', later demo_crf c' /\ get_weights (c_r c') = Ok [q 3 1; q 5 1] /\ observed_variables env_id (graph_of c') = [exB; exC] /\
  tunable_clusters (c_r c') = tunable_clusters (c_r demo_crf).
Proof.
  set (o := ccall env_id (c_pos demo_crf) (CWeights [q 3 1; q 5 1]) (c_r demo_crf)).
  assert (D : rdone o = true) by (vm_compute; reflexivity).
  assert (W : get_weights (rafter (c_r demo_crf) o) = Ok [q 3 1; q 5 1]) by (vm_compute; reflexivity).
  assert (V : observed_variables env_id (r_g (rafter (c_r demo_crf) o)) = [exB; exC]) by (vm_compute; reflexivity).
  assert (T : tunable_clusters (rafter (c_r demo_crf) o) = tunable_clusters (c_r demo_crf)) by (vm_compute; reflexivity).
  exists (mkC (rafter (c_r demo_crf) o) (c_pos demo_crf)). unfold graph_of. cbn [c_r]. split; [|split; [exact W|split; [exact V|exact T]]].
  eapply (L_call demo_crf demo_crf env_id (CWeights [q 3 1; q 5 1]) o). constructor. exact Logic.I. apply env_id_ok. reflexivity.
  apply rafter_done. exact D.
Qed.
