(** A trainer sees the model as a vector of parameters with a gradient *)
From Coq Require Import String List Arith Bool Lia Permutation Relations.
From Verif Require Import Res Num Categoric Combs Func FuncProofs GroupProofs FactorProofs FactorApi Special SpecialProofs
  Graph GraphLemmas Clusters Belief Query Gibbs GraphInv EvidInv BeliefInv BigOp Tree Cycle BPStep BPRun GraphSpec Hist P_Graph BeliefSpec Sums Exact BeliefHist Queries
  Parts JointSpec Joint GibbsProofs GibbsChain Train TrainHist Coherent TrainSpec Gradient TrainInv GradientRun P_Categoric P_Train P_Gradient CRF CRFHist CRFInv CRFSpec CRFGradient
  Trainer TrainerSpec.
Import ListNotations.
Open Scope nat_scope.

Lemma ring_mono {T} (E E' : T -> T -> Prop) c : (forall x y, E x y -> E' x y) -> ring E c -> ring E' c.
Proof. intros H (A & B & C). split; auto. split; auto. intros i x y Q1 Q2. apply H. eauto. Qed.

Lemma choice_it {T} (f : nat -> res T) : (forall k, exists x, f k = Ok x) -> exists g, forall k, f k = Ok (g k).
Proof.
  intros H. destruct (H 0) as (x0 & _). exists (fun k => match f k with Ok x => x | _ => x0 end). intros k. destruct (H k) as (x & ->). auto.
Qed.

Section Generic.
  Context {N : num}.
  Notation rst := (rst (N:=N)).
  Notation trainer := (trainer (N:=N)).
  Implicit Types s : rst.

  Section Run.
    Variable Inv : rst -> list N -> Prop.
    Variable dim : nat.
    Variable G : nat -> list N -> list N.
    Variable gradient : nat -> titer -> rst -> out rst (list N).
    Variable get : nat -> res titer.
    Variable its : nat -> titer.
    Hypothesis HGet : forall k, get k = Ok (its k).
    Hypothesis HW : forall s ws, Inv s ws -> get_weights s = Ok ws.
    Hypothesis HS : forall s ws ws', Inv s ws -> length ws' = dim -> exists s', set_weights ws' s = Ret tt s' /\ Inv s' ws'.
    Hypothesis HT : forall s ws ws', Inv s ws -> length ws' <> dim -> set_weights ws' s = Thr s.
    Hypothesis HG : forall k s ws, Inv s ws -> exists s', gradient k (its k) s = Ret (G k ws) s' /\ Inv s' ws.

    Lemma run_ideal : forall (t : trainer) k s ws, Inv s ws ->
      exists s', run_trainer gradient get t k s = (if snd (ideal_training dim G t k ws) then Ret tt s' else Thr s') /\ Inv s' (fst (ideal_training dim G t k ws)).
    Proof.
      induction t as [| |next IH|ws' t IH|next IH]; intros k s ws I; cbn [run_trainer ideal_training].
      - exists s. auto.
      - exists s. auto.
      - rewrite (HW s ws I). cbn [lift obind]. apply IH. auto.
      - destruct (Nat.eqb_spec (length ws') dim) as [L|L].
        + destruct (HS s ws ws' I L) as (s1 & -> & I1). cbn [obind]. apply IH. auto.
        + rewrite (HT s ws ws' I L). cbn [obind fst snd]. exists s. auto.
      - rewrite HGet. cbn [lift obind]. destruct (HG k s ws I) as (s1 & -> & I1). cbn [obind]. apply IH. auto.
    Qed.
  End Run.

  (** the same inside [train_model]; [base] does not depend on the pool *)
  Lemma train_ideal (base : rst -> list N -> Prop) dim G gradient floorf rand its combs info (t : trainer) s ws :
    (forall k, wrapper_get floorf rand (mkTI combs None) combs (info_percentage info) k = Ok (its k)) ->
    (forall s ws p, base s ws -> base (set_g s (set_pool (r_g s) p)) ws) ->
    (forall s ws, base s ws -> get_weights s = Ok ws) ->
    (forall s ws ws', base s ws -> g_pool (r_g s) <> None -> length ws' = dim -> exists s', set_weights ws' s = Ret tt s' /\ base s' ws' /\ g_pool (r_g s') <> None) ->
    (forall s ws ws', base s ws -> length ws' <> dim -> set_weights ws' s = Thr s) ->
    (forall k s ws, base s ws -> g_pool (r_g s) <> None -> exists s', gradient k (its k) s = Ret (G k ws) s' /\ base s' ws /\ g_pool (r_g s') <> None) ->
    (forall x : N, neqb x x = true) ->
    base s ws -> en (r_g s) -> 1 <= info_threads info ->
    exists s', train_model floorf rand gradient t combs info s = (if snd (ideal_training dim G t 0 ws) then Ret tt s' else Thr s') /\
      base s' (fst (ideal_training dim G t 0 ws)) /\ g_pool (r_g s') = Some 1.
  Proof.
    intros HGet BP BW BS BT BG RX I EN L. unfold train_model, wrapper_ctor, iter_ctor. rewrite RX. cbn [lift obind].
    pose proof (run_ideal (fun s ws => base s ws /\ g_pool (r_g s) <> None) dim G gradient (wrapper_get floorf rand (mkTI combs None) combs (info_percentage info)) its HGet
      (fun s ws I => BW s ws (proj1 I)) (fun s ws ws' I => BS s ws ws' (proj1 I) (proj2 I)) (fun s ws ws' I => BT s ws ws' (proj1 I)) (fun k s ws I => BG k s ws (proj1 I) (proj2 I)) t 0) as RI.
    assert (K : forall s1, base s1 ws -> g_pool (r_g s1) <> None -> exists s',
      match run_trainer gradient (wrapper_get floorf rand (mkTI combs None) combs (info_percentage info)) t 0 s1 with
      | Ret a s => Ret a (set_g s (set_pool (r_g s) (Some 1))) | Thr s => Thr (set_g s (set_pool (r_g s) (Some 1))) | Undef => Undef | NotNum => NotNum | NoStop => NoStop end =
      (if snd (ideal_training dim G t 0 ws) then Ret tt s' else Thr s') /\ base s' (fst (ideal_training dim G t 0 ws)) /\ g_pool (r_g s') = Some 1).
    { intros s1 I1 P1. destruct (RI s1 ws (conj I1 P1)) as (s2 & E & I2 & _). rewrite E. exists (set_g s2 (set_pool (r_g s2) (Some 1))).
      split. destruct (snd _); auto. split; auto. }
    unfold scoped, on_g, set_pool_size. rewrite EN. destruct (Nat.eqb_spec (info_threads info) 0); [lia|].
    destruct (info_threads info =? 1); cbn [obind].
    - assert (Q : set_g s (r_g s) = s) by (destruct s; auto). rewrite Q. apply K; auto. rewrite EN. discriminate.
    - apply K. apply BP; auto. simpl. discriminate.
  Qed.

  (** the iterators *)
  Lemma iter_drawn (floorf : N -> nat) rand combs p k : combs <> [] -> neqb n1 p = false -> nltb n0 p = true -> nltb n1 p = false ->
    exists it, iter_ctor floorf (rand k) combs p = Ok it /\ iter_samples it = Ok (drawn floorf rand combs p k).
  Proof.
    intros NE X1 X2 X3. unfold iter_ctor, drawn. rewrite X1, X2, X3. cbn [negb orb].
    rewrite (Res.rmap_ok _ (fun j => rand k j mod length combs)). 2:{ intros j _. destruct (length combs) eqn:L; auto. destruct combs; simpl in *; congruence. }
    cbn [rbind]. eexists. split. reflexivity. unfold iter_samples. cbn [ti_subset ti_combs]. set (l := seq 0 _). clearbody l.
    rewrite (Res.rmap_ok _ (fun i => nth i combs [])). rewrite map_map. auto.
    intros i J. apply in_map_iff in J as (j & <- & _). unfold vget. assert (B : rand k j mod length combs < length combs) by (apply Nat.mod_upper_bound; destruct combs; simpl; congruence).
    rewrite (nth_error_nth' combs [] B). auto.
  Qed.
  Lemma drawn_in (floorf : N -> nat) rand combs p k c : combs <> [] -> In c (drawn floorf rand combs p k) -> In c combs.
  Proof.
    intros NE. unfold drawn. destruct (neqb n1 p); auto. intros J. apply in_map_iff in J as (j & <- & _). apply nth_In. apply Nat.mod_upper_bound. destruct combs; simpl; congruence.
  Qed.

  (** factors with other weights *)
  Lemma ww_ext (F F' : nat -> func N) cs ws f : F f = F' f -> with_weights F cs ws f = with_weights F' cs ws f.
  Proof. intros E. revert ws. induction cs as [|c cs IH]; intros [|w ws]; simpl; auto. rewrite E, IH. auto. Qed.
  Lemma ww_group (F : nat -> func N) cs ws f : f_group (with_weights F cs ws f) = f_group (F f).
  Proof. revert ws. induction cs as [|c cs IH]; intros [|w ws]; simpl; auto. destruct (existsb _ _); auto. Qed.
  Lemma ww_img (F : nat -> func N) cs ws f : fimg (with_weights F cs ws f) = fimg (F f).
  Proof. revert ws. induction cs as [|c cs IH]; intros [|w ws]; simpl; auto. destruct (existsb _ _); auto. Qed.
  Lemma ww_vars (F : nat -> func N) cs ws f : f_vars (with_weights F cs ws f) = f_vars (F f).
  Proof. unfold f_vars. rewrite ww_group. auto. Qed.
  Lemma ww_twice (F : nat -> func N) cs ws ws' f : NoDup (concat cs) -> length ws = length cs -> length ws' = length cs ->
    with_weights (with_weights F cs ws) cs ws' f = with_weights F cs ws' f.
  Proof.
    intros ND L L'. destruct (in_dec Nat.eq_dec f (concat cs)) as [J|J]; [|rewrite !with_weights_out; auto].
    apply in_concat in J as (c & Jc & Jf). apply In_nth_error in Jc as (k & Hc).
    assert (B : k < length cs) by (apply nth_error_Some; congruence).
    destruct (nth_error ws k) as [w|] eqn:Hw; [|apply nth_error_None in Hw; lia]. destruct (nth_error ws' k) as [w'|] eqn:Hw'; [|apply nth_error_None in Hw'; lia].
    rewrite (with_weights_in _ _ ND ws' k c w' f Hc Hw' Jf), (with_weights_in _ _ ND ws k c w f Hc Hw Jf), (with_weights_in _ _ ND ws' k c w' f Hc Hw' Jf). auto.
  Qed.
  Lemma ww_same s ws : rinv s -> get_weights s = Ok ws -> forall f, r_h s f = with_weights (r_h s) (tunable_clusters s) ws f.
  Proof.
    intros I E f. destruct (get_weights_ok s I) as (ws' & E' & L & W). rewrite E in E'. injection E' as <-.
    destruct (in_dec Nat.eq_dec f (concat (tunable_clusters s))) as [J|J]; [|rewrite with_weights_out; auto].
    apply in_concat in J as (c & Jc & Jf). apply In_nth_error in Jc as (k & Hc).
    assert (B : k < length (tunable_clusters s)) by (apply nth_error_Some; congruence).
    destruct (nth_error ws k) as [w|] eqn:Hw; [|apply nth_error_None in Hw; lia].
    rewrite (with_weights_in _ _ (ri_cls _ I) ws k c w f Hc Hw Jf). unfold with_weight. rewrite <- (W k c w Hc Hw f Jf). destruct (r_h s f); auto.
  Qed.
  Lemma set_weights_ww s ws : rinv s -> length ws = length (tunable_clusters s) ->
    exists s', set_weights ws s = Ret tt s' /\ (forall f, r_h s' f = with_weights (r_h s) (tunable_clusters s) ws f) /\
      r_tuners s' = r_tuners s /\ r_const s' = r_const s /\ r_tun s' = r_tun s /\ r_top s' = r_top s /\ r_g s' = reset_belief (r_g s) /\ get_weights s' = Ok ws.
  Proof.
    intros I L. assert (L' : length ws = length (r_tuners s)) by (rewrite L; unfold tunable_clusters; apply map_length).
    destruct (set_weights_ok s ws I L') as (h' & E & P1 & P2). pose proof (set_weights_step s ws I) as ST. rewrite E in ST. destruct ST as [I' _].
    assert (W : forall f, h' f = with_weights (r_h s) (tunable_clusters s) ws f).
    { intros f. destruct (in_dec Nat.eq_dec f (concat (tunable_clusters s))) as [J|J]; [|rewrite with_weights_out; auto].
      apply in_concat in J as (c & Jc & Jf). apply In_nth_error in Jc as (k & Hc). destruct (nth_error ws k) as [w|] eqn:Hw.
      + rewrite (with_weights_in _ _ (ri_cls _ I) ws k c w f) by auto. rewrite (P1 k c w f); auto.
      + exfalso. apply nth_error_None in Hw. assert (k < length (tunable_clusters s)) by (apply nth_error_Some; congruence). lia. }
    eexists. split. exact E. split. exact W. split; auto. split; auto. split; auto. split; auto. split; auto.
    destruct (get_weights_ok _ I') as (ws' & G & LW & WW). rewrite G. f_equal. change (tunable_clusters (set_g (set_h s h') (reset_belief (r_g s)))) with (tunable_clusters s) in *.
    apply nth_error_ext'. intros k. destruct (nth_error (tunable_clusters s) k) as [c|] eqn:Hc.
    - assert (B : k < length (tunable_clusters s)) by (apply nth_error_Some; congruence).
      destruct (nth_error ws k) as [w|] eqn:Hw; [|apply nth_error_None in Hw; lia]. destruct (nth_error ws' k) as [w'|] eqn:Hw'; [|apply nth_error_None in Hw'; lia].
      pose proof (nth_error_In _ _ Hc) as Jc. pose proof (ri_ne _ I _ Jc) as NE. destruct c as [|f c]; [congruence|].
      pose proof (WW k _ w' Hc Hw' f (or_introl eq_refl)) as X. cbn [r_h set_g set_h] in X. rewrite W, (with_weights_in _ _ (ri_cls _ I) ws k _ w f Hc Hw (or_introl eq_refl)) in X. simpl in X. congruence.
    - apply nth_error_None in Hc. rewrite !(proj2 (nth_error_None _ _)); auto; lia.
  Qed.

  (** the specifications read the factors pointwise *)
  Lemma features_ww (F : nat -> func N) cs ws c x : features (with_weights F cs ws) c x = features F c x.
  Proof. unfold features, feature. apply sumL_ext. intros f _. rewrite ww_img, ww_vars. auto. Qed.
  Lemma features_ext (F F' : nat -> func N) c x : (forall f, F f = F' f) -> features F c x = features F' c x.
  Proof. intros E. unfold features, feature. apply sumL_ext. intros f _. rewrite E. auto. Qed.
  Lemma weight_ext (F F' : nat -> func N) A x : (forall f, F f = F' f) -> weight F A x = weight F' A x.
  Proof. intros E. unfold weight, prodL. induction (sp_facs A) as [|f l IH]; simpl; auto. rewrite IH, E. auto. Qed.
  Lemma expected_ext2 (W W' : asg -> N) A G G' : (forall x, W x = W' x) -> (forall x, G x = G' x) -> expected W A G = expected W' A G'.
  Proof.
    intros E E'. unfold expected, mass. f_equal; apply sumL_ext; intros x _. rewrite E, E'. auto. rewrite E. auto.
  Qed.
  Lemma mean_ext vs samples (G G' : asg -> N) : (forall x, G x = G' x) -> mean vs samples G = mean vs samples G'.
  Proof. intros E. unfold mean. f_equal. apply sumL_ext. intros; auto. Qed.
  Lemma positive_ext (W W' : asg -> N) A : (forall x, W x = W' x) -> positive W A -> positive W' A.
  Proof. intros E (x & P & Q). exists x. rewrite <- E. auto. Qed.
  Lemma symmetric_ext (F F' : nat -> func N) A : (forall f, F f = F' f) -> symmetric F A -> symmetric F' A.
  Proof. intros E S f v w J. unfold joins, fv in *. rewrite <- E in *. apply S; auto. Qed.
  Lemma edge_ext (F F' : nat -> func N) A B v w : (forall f, f_vars (F f) = f_vars (F' f)) -> sp_facs A = sp_facs B -> (forall v, BeliefSpec.hidden A v <-> BeliefSpec.hidden B v) ->
    hidden_edge F A v w -> hidden_edge F' B v w.
  Proof. intros E EF EH (H1 & H2 & f & J & Q). split. apply EH; auto. split. apply EH; auto. exists f. unfold joins, fv in *. rewrite <- EF, <- E. auto. Qed.
  Lemma linked_ext (F F' : nat -> func N) A B v w : (forall f, f_vars (F f) = f_vars (F' f)) -> sp_facs A = sp_facs B -> (forall v, BeliefSpec.hidden A v <-> BeliefSpec.hidden B v) ->
    hidden_linked F A v w -> hidden_linked F' B v w.
  Proof. intros E EF EH L. induction L. apply rt_step. eapply edge_ext; eauto. apply rt_refl. eapply rt_trans; eauto. Qed.
  Lemma tree_ext (F F' : nat -> func N) A B v : (forall f, f_vars (F f) = f_vars (F' f)) -> sp_facs A = sp_facs B -> (forall v, BeliefSpec.hidden A v <-> BeliefSpec.hidden B v) ->
    tree_around F A v -> tree_around F' B v.
  Proof.
    intros E EF EH T (c & R & L). apply T. exists c.
    assert (E' : forall f, f_vars (F' f) = f_vars (F f)) by auto. assert (EF' : sp_facs B = sp_facs A) by auto. assert (EH' : forall v, BeliefSpec.hidden B v <-> BeliefSpec.hidden A v) by (intros; rewrite EH; tauto).
    split. 2:{ intros w J. eapply linked_ext; [exact E'|exact EF'|exact EH'|]. auto. }
    eapply ring_mono; [|exact R]. intros x y Q. eapply edge_ext; [exact E'|exact EF'|exact EH'|]. auto.
  Qed.
End Generic.

(** {1 Random fields} *)
Section Field.
  Context {N : num} (OK : num_ok N).
  Notation rst := (rst (N:=N)).
  Implicit Types s : rst.

  (** the state of the model during the training that starts from [s0] *)
  Record tstate s0 s (ws : list N) : Prop := {
    ts_coh : coh False s;
    ts_tin : tinv s;
    ts_hid : tunables_hidden s;
    ts_tuners : r_tuners s = r_tuners s0;
    ts_const : r_const s = r_const s0;
    ts_tun : r_tun s = r_tun s0;
    ts_vars : g_vars (r_g s) = g_vars (r_g s0);
    ts_all : g_all (r_g s) = g_all (r_g s0);
    ts_h : forall f, r_h s f = with_weights (r_h s0) (tunable_clusters s0) ws f;
    ts_len : length ws = length (tunable_clusters s0);
    ts_get : get_weights s = Ok ws
  }.

  Lemma tstate_clusters s0 s ws : tstate s0 s ws -> tunable_clusters s = tunable_clusters s0.
  Proof. intros T. unfold tunable_clusters. rewrite (ts_tuners _ _ _ T). auto. Qed.

  Lemma unobserved_g s s' : g_vars (r_g s') = g_vars (r_g s) -> g_ev (r_g s') = g_ev (r_g s) -> forall v, unobserved s v -> unobserved s' v.
  Proof. intros V E v. unfold unobserved, sp_observed, sp_known, spec_of. cbn [sp_vars sp_ev]. rewrite V, E. auto. Qed.

  Lemma tstate_pool s0 s ws p : tstate s0 s ws -> tstate s0 (set_g s (set_pool (r_g s) p)) ws.
  Proof.
    intros T. destruct T. constructor; auto.
    apply coh_g; auto. apply step_g; auto. apply ts_coh0. pose proof (ch_inv _ _ ts_coh0) as [X Y].
    split. eapply core_same; [| | |exact X]; auto. eapply clus_same; [| | | |exact Y]; auto. intros [].
  Qed.

  Lemma tstate_set s0 s ws ws' : tstate s0 s ws -> length ws' = length (tunable_clusters s0) ->
    exists s', set_weights ws' s = Ret tt s' /\ tstate s0 s' ws' /\ g_pool (r_g s') = g_pool (r_g s).
  Proof.
    intros T L. pose proof (tstate_clusters _ _ _ T) as EC. pose proof (ch_r _ _ (ts_coh _ _ _ T)) as RI.
    destruct (set_weights_ww s ws' RI) as (s' & E & H' & T1 & T2 & T3 & T4 & T5 & GW). rewrite EC; auto.
    exists s'. split; auto. split; [|rewrite T5; auto].
    pose proof (set_weights_coh False s ws' (ts_coh _ _ _ T) (ts_hid _ _ _ T)) as CC. rewrite E in CC. cbn [ocoh] in CC.
    assert (EC' : tunable_clusters s' = tunable_clusters s) by (unfold tunable_clusters; rewrite T1; auto).
    assert (FV : forall f, f_vars (r_h s' f) = f_vars (r_h s f)) by (intros f; rewrite H'; apply ww_vars).
    assert (GV : g_vars (r_g s') = g_vars (r_g s)) by (rewrite T5; auto).
    constructor; auto.
    - apply CC.
    - intros t b It Ib. rewrite T1 in It. destruct (ts_tin _ _ _ T t b It Ib) as [B1 B2]. split. lia. rewrite FV. unfold var_at in *. rewrite GV. auto.
    - intros c f Jc Jf. rewrite EC' in Jc. destruct (ts_hid _ _ _ T c f Jc Jf) as [B1 B2]. rewrite FV. split; auto. intros v J. apply (unobserved_g s); auto. rewrite T5. auto.
    - rewrite T1. apply T.
    - rewrite T2. apply T.
    - rewrite T3. apply T.
    - rewrite GV. apply T.
    - rewrite T5. apply T.
    - intros f. rewrite H', EC. rewrite <- (ww_twice (r_h s0) (tunable_clusters s0) ws ws').
      + apply ww_ext. apply T.
      + rewrite <- EC. apply RI.
      + apply T.
      + auto.
  Qed.

  Lemma tstate_refuse s0 s ws ws' : tstate s0 s ws -> length ws' <> length (tunable_clusters s0) -> set_weights ws' s = Thr s.
  Proof. intros T L. apply C37_wrong_size. rewrite (tstate_clusters _ _ _ T). auto. Qed.

  Lemma rf_gradient_pool e it s a s' : rf_gradient e it s = Ret a s' -> g_pool (r_g s') <> None.
  Proof.
    unfold rf_gradient. destruct (if existsb _ _ then _ else _) as [[] s1|s1| | |]; cbn [obind]; try discriminate.
    destruct (on_g _ _) as [[] s2|s2| | |]; cbn [obind]; try discriminate. destruct (g_pool (r_g s2)) eqn:P; try discriminate.
    match goal with |- lift ?r _ = _ -> _ => destruct r; cbn [lift]; try discriminate end. intros [= _ <-]. congruence.
  Qed.

  Lemma on_g_members {B} (m : gst (N:=N) -> out _ B) s a s' : on_g m s = Ret a s' -> r_const s' = r_const s /\ r_tun s' = r_tun s.
  Proof. unfold on_g. destruct (m (r_g s)); try discriminate. intros [= _ <-]. auto. Qed.
  Lemma rf_gradient_members e it s a s' : rf_gradient e it s = Ret a s' -> r_const s' = r_const s /\ r_tun s' = r_tun s.
  Proof.
    unfold rf_gradient. set (o := if existsb _ _ then _ else _). destruct o as [[] s1|s1| | |] eqn:X1; cbn [obind]; try discriminate.
    assert (M1 : r_const s1 = r_const s /\ r_tun s1 = r_tun s). { unfold o in X1. destruct (existsb _ _). apply on_g_members in X1. auto. injection X1 as <-. auto. }
    match goal with |- context [on_g ?f ?x] => destruct (on_g f x) as [[] s2|s2| | |] eqn:X2; cbn [obind]; try discriminate end.
    apply on_g_members in X2. destruct (g_pool (r_g s2)); try discriminate.
    match goal with |- lift ?r _ = _ -> _ => destruct r; cbn [lift]; try discriminate end. intros [= _ <-]. cbn [r_const r_tun set_g] in X2. destruct X2, M1. split; congruence.
  Qed.

  Notation gradient_at s0 := (log_gradient (r_h s0) (bare s0) (tunable_clusters s0)).

  Lemma tstate_gradient s0 s ws e it samples : tstate s0 s ws -> g_pool (r_g s) <> None -> env_ok e ->
    (forall ws, length ws = length (tunable_clusters s0) -> symmetric (with_weights (r_h s0) (tunable_clusters s0) ws) (bare s0) /\
       positive (weight (with_weights (r_h s0) (tunable_clusters s0) ws) (bare s0)) (bare s0)) ->
    (forall v, In v (g_vars (r_g s0)) -> tree_around (r_h s0) (bare s0) v) ->
    iter_samples it = Ok samples -> samples <> [] -> (forall c, In c samples -> valid_comb (map vsize (g_vars (r_g s0))) c) ->
    exists s', rf_gradient e it s = Ret (gradient_at s0 samples ws) s' /\ tstate s0 s' ws /\ g_pool (r_g s') <> None.
  Proof.
    intros T PN E TW TR IS NE V. pose proof (tstate_clusters _ _ _ T) as EC.
    assert (EB : bare s = bare s0) by (unfold bare; rewrite (ts_vars _ _ _ T), (ts_all _ _ _ T); auto).
    destruct (TW ws (ts_len _ _ _ T)) as [SY PO].
    destruct (gradient_ok OK s False e it samples (ts_coh _ _ _ T) (ts_tin _ _ _ T) PN E) as (s' & Q1 & Q2 & Q3 & Q4 & Q5 & Q6 & _); auto; rewrite ?EB.
    - eapply symmetric_ext; [|exact SY]. intros f. symmetry. apply T.
    - eapply positive_ext; [|exact PO]. intros x. apply weight_ext. intros f. symmetry. apply T.
    - intros v J. change (sp_vars (bare s0)) with (g_vars (r_g s0)) in J. eapply tree_ext; [| | |exact (TR v J)]; auto; [|tauto]. intros f. rewrite (ts_h _ _ _ T), ww_vars. auto.
    - rewrite (ts_vars _ _ _ T). auto.
    - exists s'. split.
      + rewrite Q1, EB, EC, (ts_vars _ _ _ T). f_equal. unfold log_gradient. apply map_ext. intros c. f_equal.
        * apply mean_ext. intros x. rewrite (features_ext _ _ c x (ts_h _ _ _ T)). apply features_ww.
        * apply expected_ext2. intros x. apply weight_ext. apply T. intros x. rewrite (features_ext _ _ c x (ts_h _ _ _ T)). apply features_ww.
      + split; [|eapply rf_gradient_pool; eauto].
        pose proof (rf_gradient_coh False s e it (ts_coh _ _ _ T) E) as CC. rewrite Q1 in CC.
        pose proof (rf_gradient_tuners s e it) as RT. rewrite Q1 in RT.
        pose proof (rf_gradient_step s e it (ch_r _ _ (ts_coh _ _ _ T))) as ST. rewrite Q1 in ST. destruct ST as [_ RL].
        pose proof (rf_gradient_members e it s _ s' Q1) as MS.
        constructor; auto.
        * apply (tinv_le s); auto. apply T.
        * intros c f Jc Jf. rewrite Q3 in Jc. destruct (ts_hid _ _ _ T c f Jc Jf) as [B1 B2]. rewrite Q2. split; auto. intros v J. apply unobserved_none. auto.
        * rewrite RT. apply T.
        * rewrite (proj1 MS). apply T.
        * rewrite (proj2 MS). apply T.
        * rewrite Q4. apply T.
        * rewrite Q5. apply T.
        * intros f. rewrite Q2. apply T.
        * apply T.
        * unfold get_weights. rewrite Q2, RT. apply T.
  Qed.

  Theorem train_field_ok s es floorf rand t combs info ws : full False s -> tunables_hidden s -> (forall k, env_ok (es k)) -> get_weights s = Ok ws -> 1 <= info_threads info ->
    (forall ws, length ws = length (tunable_clusters s) -> symmetric (with_weights (r_h s) (tunable_clusters s) ws) (bare s) /\
       positive (weight (with_weights (r_h s) (tunable_clusters s) ws) (bare s)) (bare s)) ->
    (forall v, In v (g_vars (r_g s)) -> tree_around (r_h s) (bare s) v) ->
    (forall c, In c combs -> valid_comb (map vsize (g_vars (r_g s))) c) ->
    (forall k, exists it, wrapper_get floorf rand (mkTI combs None) combs (info_percentage info) k = Ok it /\ iter_samples it = Ok (drawn floorf rand combs (info_percentage info) k) /\ drawn floorf rand combs (info_percentage info) k <> []) ->
    combs <> [] ->
    let r := ideal_training (length (tunable_clusters s)) (fun k => gradient_at s (drawn floorf rand combs (info_percentage info) k)) t 0 ws in
    exists s', train_field floorf rand es t combs info s = (if snd r then Ret tt s' else Thr s') /\ tstate s s' (fst r) /\ g_pool (r_g s') = Some 1.
  Proof.
    intros F TH E GW L TW TR V W NE r. unfold train_field. pose proof F as [C T EN].
    assert (LW : length ws = length (tunable_clusters s)). { destruct (get_weights_ok s (ch_r _ _ C)) as (ws' & GW' & LW & _). congruence. }
    destruct (choice_it (fun k => wrapper_get floorf rand (mkTI combs None) combs (info_percentage info) k)) as (its & ITS).
    { intros k. destruct (W k) as (it & -> & _). eauto. }
    eapply (train_ideal (tstate s)) with (its := its); auto.
    - intros s1 ws1 p. apply tstate_pool.
    - intros s1 ws1 T1. apply T1.
    - intros s1 ws1 ws' T1 PN L'. destruct (tstate_set s s1 ws1 ws' T1 L') as (s' & E1 & T' & P'). exists s'. rewrite P'. auto.
    - intros s1 ws1 ws'. apply tstate_refuse.
    - intros k s1 ws1 T1 PN. destruct (W k) as (it & E1 & E2 & E3). rewrite ITS in E1. injection E1 as <-.
      apply tstate_gradient with (s0 := s); auto. intros c J. apply V. eapply drawn_in; eauto.
    - intros x. apply (ok_eqb N OK). auto.
    - constructor; auto. apply ww_same; auto. apply C.
  Qed.
End Field.

(** {1 Conditional random fields} *)
Section Conditional.
  Context {N : num} (OK : num_ok N).
  Notation rst := (rst (N:=N)).
  Implicit Types s : rst.

  Lemma sp_ev_frozen s s' k : frozen s s' -> (sp_ev (spec_of (r_g s')) k = None <-> sp_ev (spec_of (r_g s)) k = None).
  Proof.
    intros F. unfold spec_of. cbn [sp_ev]. rewrite (fz_vars _ _ F). destruct (find_pos _ _) as [a|]; [|tauto]. apply F.
  Qed.
  Lemma hidden_frozen s s' v : frozen s s' -> (BeliefSpec.hidden (spec_of (r_g s')) v <-> BeliefSpec.hidden (spec_of (r_g s)) v).
  Proof. intros F. unfold BeliefSpec.hidden, sp_evidence. rewrite (sp_ev_frozen s s' _ F). unfold spec_of at 1 3. cbn [sp_vars]. rewrite (fz_vars _ _ F). tauto. Qed.
  Lemma unobserved_frozen s s' v : frozen s s' -> (unobserved s' v <-> unobserved s v).
  Proof.
    intros F. pose proof (sp_ev_frozen s s' (vname v, vsize v) F) as Q. unfold unobserved, sp_observed.
    assert (K : sp_known (spec_of (r_g s')) v = sp_known (spec_of (r_g s)) v) by (unfold sp_known, spec_of; cbn [sp_vars]; rewrite (fz_vars _ _ F); auto). rewrite K.
    destruct (sp_known (spec_of (r_g s)) v); cbn [andb]; [|tauto].
    destruct (sp_ev (spec_of (r_g s')) (vname v, vsize v)), (sp_ev (spec_of (r_g s)) (vname v, vsize v)); try tauto; exfalso; [assert (X : Some n = None) by tauto; discriminate | assert (X : Some n = None) by tauto; discriminate].
  Qed.
  Lemma clusters_frozen s s' : frozen s s' -> tunable_clusters s' = tunable_clusters s.
  Proof. intros F. unfold tunable_clusters. rewrite (fz_tuners _ _ F). auto. Qed.
  Lemma exposed_frozen s s' : frozen s s' -> exposed s -> exposed s'.
  Proof.
    intros F EX c f v Jc Jf Ef. rewrite (clusters_frozen _ _ F) in Jc. assert (FV : forall f, f_vars (r_h s' f) = f_vars (r_h s f)) by (intros; unfold f_vars; rewrite (fz_group _ _ F); auto).
    rewrite FV in Ef. destruct (EX c f v Jc Jf Ef) as (f' & w & J & Q & O). exists f', w. rewrite (fz_all _ _ F), FV, (unobserved_frozen s s' w F). auto.
  Qed.

  Lemma given_same s s' c k : frozen s s' -> sp_ev (given (spec_of (r_g s')) c) k = sp_ev (given (spec_of (r_g s)) c) k.
  Proof.
    intros F. pose proof (sp_ev_frozen s s' k F) as Q. unfold given. cbn [sp_ev]. replace (sp_vars (spec_of (r_g s'))) with (sp_vars (spec_of (r_g s))) by (unfold spec_of; cbn [sp_vars]; rewrite (fz_vars _ _ F); auto).
    destruct (sp_ev (spec_of (r_g s')) k), (sp_ev (spec_of (r_g s)) k); auto; exfalso; [assert (X : Some n = None) by tauto; discriminate | assert (X : Some n = None) by tauto; discriminate].
  Qed.
  Lemma agrees_same s s' c x : frozen s s' -> agrees (given (spec_of (r_g s')) c) x = agrees (given (spec_of (r_g s)) c) x.
  Proof.
    intros F. unfold agrees, sp_evidence. replace (sp_vars (given (spec_of (r_g s')) c)) with (sp_vars (given (spec_of (r_g s)) c)) by (unfold given, spec_of; cbn [sp_vars]; rewrite (fz_vars _ _ F); auto).
    induction (sp_vars (given (spec_of (r_g s)) c)) as [|v l IH]; cbn [forallb]; auto. rewrite (given_same s s' c _ F), IH. auto.
  Qed.
  Lemma mean_expected_same (F F' : nat -> func N) s s' samples (G G' : asg -> N) : frozen s s' -> (forall f, F' f = F f) -> (forall x, G' x = G x) ->
    mean_expected F' (spec_of (r_g s')) samples G' = mean_expected F (spec_of (r_g s)) samples G.
  Proof.
    intros FZ E EG. unfold mean_expected. f_equal. apply sumL_ext. intros c _. unfold expected, mass.
    replace (sp_vars (given (spec_of (r_g s')) c)) with (sp_vars (given (spec_of (r_g s)) c)) by (unfold given, spec_of; cbn [sp_vars]; rewrite (fz_vars _ _ FZ); auto).
    assert (W : forall x, weight F' (given (spec_of (r_g s')) c) x = weight F (given (spec_of (r_g s)) c) x).
    { intros x. rewrite (weight_ext F' F _ x E). unfold weight. replace (sp_facs (given (spec_of (r_g s')) c)) with (sp_facs (given (spec_of (r_g s)) c)) by (unfold given, spec_of; cbn [sp_facs]; rewrite (fz_all _ _ FZ); auto). auto. }
    f_equal; apply sumL_ext; intros x _; rewrite (agrees_same s s' c x FZ), W, ?EG; auto.
  Qed.
  Lemma positive_same (F F' : nat -> func N) s s' c : frozen s s' -> (forall f, F' f = F f) ->
    positive (weight F (spec_of (r_g s))) (given (spec_of (r_g s)) c) -> positive (weight F' (spec_of (r_g s'))) (given (spec_of (r_g s')) c).
  Proof.
    intros FZ E (x & [J A] & P). exists x. split. split.
    - replace (sp_vars (given (spec_of (r_g s')) c)) with (sp_vars (given (spec_of (r_g s)) c)) by (unfold given, spec_of; cbn [sp_vars]; rewrite (fz_vars _ _ FZ); auto). auto.
    - rewrite (agrees_same s s'); auto.
    - rewrite (weight_ext F' F _ x E). unfold weight in *. replace (sp_facs (spec_of (r_g s'))) with (sp_facs (spec_of (r_g s))) by (unfold spec_of; cbn [sp_facs]; rewrite (fz_all _ _ FZ); auto). auto.
  Qed.
  Lemma symmetric_same (F F' : nat -> func N) s s' : frozen s s' -> (forall f, F' f = F f) -> symmetric F (spec_of (r_g s)) -> symmetric F' (spec_of (r_g s')).
  Proof.
    intros FZ E SY f v w J H1 H2. apply (hidden_frozen s s' v FZ) in H1. apply (hidden_frozen s s' w FZ) in H2. unfold joins, fv in J. rewrite E in *.
    apply (SY f v w); auto. unfold joins, fv. replace (sp_facs (spec_of (r_g s))) with (sp_facs (spec_of (r_g s'))) by (unfold spec_of; cbn [sp_facs]; rewrite (fz_all _ _ FZ); auto). auto.
  Qed.

  (** the state of the model during the training that starts from [s0] *)
  Record cstate s0 s (ws : list N) : Prop := {
    cs_weak : weak s;
    cs_tin : ctinv s;
    cs_frozen : frozen s0 s;
    cs_exposed : exposed s;
    cs_h : forall f, r_h s f = with_weights (r_h s0) (tunable_clusters s0) ws f;
    cs_len : length ws = length (tunable_clusters s0);
    cs_get : get_weights s = Ok ws
  }.

  Lemma cstate_pool s0 s ws p : cstate s0 s ws -> cstate s0 (set_g s (set_pool (r_g s) p)) ws.
  Proof.
    intros T. destruct T. constructor; auto.
    - apply weak_g; auto.
    - destruct cs_frozen0. constructor; auto.
  Qed.
  Lemma cstate_set s0 s ws ws' : cstate s0 s ws -> length ws' = length (tunable_clusters s0) ->
    exists s', set_weights ws' s = Ret tt s' /\ cstate s0 s' ws' /\ g_pool (r_g s') = g_pool (r_g s).
  Proof.
    intros T L. pose proof (clusters_frozen _ _ (cs_frozen _ _ _ T)) as EC. pose proof (wk_r _ _ (cs_weak _ _ _ T)) as RI.
    destruct (set_weights_ww s ws' RI) as (s' & E & H' & T1 & T2 & T3 & T4 & T5 & GW). rewrite EC; auto.
    exists s'. split; auto. split; [|rewrite T5; auto].
    pose proof (set_weights_weak ws' s (cs_weak _ _ _ T) (cs_exposed _ _ _ T)) as WK. rewrite E in WK.
    assert (FZ : frozen s s'). { constructor; auto; try (rewrite T5; auto). intros f. rewrite H'. apply ww_group. intros a. simpl. tauto. }
    constructor; auto.
    - eapply ctinv_frozen; [exact FZ|]. apply T.
    - eapply frozen_trans; [|exact FZ]. apply T.
    - eapply exposed_frozen; [exact FZ|]. apply T.
    - intros f. rewrite H', EC. rewrite <- (ww_twice (r_h s0) (tunable_clusters s0) ws ws'); auto; try apply T.
      + apply ww_ext. apply T.
      + rewrite <- EC. apply RI.
  Qed.
  Lemma cstate_refuse s0 s ws ws' : cstate s0 s ws -> length ws' <> length (tunable_clusters s0) -> set_weights ws' s = Thr s.
  Proof. intros T L. apply C37_wrong_size. rewrite (clusters_frozen _ _ (cs_frozen _ _ _ T)). auto. Qed.

  Lemma crf_betas_pool es pos coeff samples : forall k betas s a s', crf_betas es pos coeff k samples betas s = Ret a s' -> g_pool (r_g s) <> None -> g_pool (r_g s') <> None.
  Proof.
    induction samples as [|c l IH]; intros k betas s a s'; cbn [crf_betas]. intros [= _ <-]; auto.
    intros Q _. revert Q. destruct (sample_evidences _ _ _ _) as [[] s1|s1| | |]; cbn [obind]; try discriminate.
    destruct (on_g _ s1) as [[] s2|s2| | |]; cbn [obind]; try discriminate. destruct (g_pool (r_g s2)) eqn:P; try discriminate.
    match goal with |- context [lift ?r s2] => destruct r; cbn [lift obind]; try discriminate end. intros Q. eapply IH; eauto. congruence.
  Qed.
  Lemma crf_gradient_pool es pos it s a s' : crf_gradient es pos it s = Ret a s' -> g_pool (r_g s') <> None.
  Proof.
    unfold crf_gradient. destruct (g_pool (r_g s)) eqn:P; try discriminate. destruct (iter_samples it); cbn [lift obind]; try discriminate.
    match goal with |- context [lift ?r s] => destruct r; cbn [lift obind]; try discriminate end.
    match goal with |- context [crf_betas ?a ?b ?c ?d ?e ?f ?g] => destruct (crf_betas a b c d e f g) eqn:Q; cbn [obind]; try discriminate end.
    intros [= _ <-]. eapply crf_betas_pool; eauto. congruence.
  Qed.

  Notation cond_gradient_at s0 := (cond_gradient (r_h s0) (spec_of (r_g s0)) (tunable_clusters s0)).

  Lemma cstate_gradient s0 s ws es pos it samples : cstate s0 s ws -> g_pool (r_g s) <> None -> (forall k, env_ok (es k)) -> (forall k, pos = evidence_order (es k) (r_g s0)) ->
    (exists a, g_ev (r_g s0) a <> None) ->
    (forall ws, length ws = length (tunable_clusters s0) -> symmetric (with_weights (r_h s0) (tunable_clusters s0) ws) (spec_of (r_g s0)) /\
       forall c, In c samples -> positive (weight (with_weights (r_h s0) (tunable_clusters s0) ws) (spec_of (r_g s0))) (given (spec_of (r_g s0)) c)) ->
    (forall v, BeliefSpec.hidden (spec_of (r_g s0)) v -> tree_around (r_h s0) (spec_of (r_g s0)) v) ->
    iter_samples it = Ok samples -> samples <> [] -> (forall c, In c samples -> valid_comb (map vsize (g_vars (r_g s0))) c) ->
    exists s', crf_gradient es pos it s = Ret (cond_gradient_at s0 samples ws) s' /\ cstate s0 s' ws /\ g_pool (r_g s') <> None.
  Proof.
    intros T PN E EP OB TW TR IS NE V. pose proof (cs_frozen _ _ _ T) as FZ. pose proof (clusters_frozen _ _ FZ) as EC.
    destruct (TW ws (cs_len _ _ _ T)) as [SY PO].
    destruct (crf_gradient_ok OK s es pos it samples (spec_of (r_g s)) (cs_weak _ _ _ T) (cs_tin _ _ _ T) PN eq_refl E) as (s' & Q1 & Q2 & Q3 & _); auto.
    - intros k. rewrite (EP k). unfold evidence_order. rewrite (keys_same (r_g s0) (r_g s) (fz_vars _ _ FZ)) by (intros a; pose proof (fz_obs _ _ FZ a); tauto). unfold gsize. rewrite (fz_vars _ _ FZ). auto.
    - destruct OB as (a & Ha). exists a. pose proof (fz_obs _ _ FZ a). tauto.
    - eapply symmetric_same; [exact FZ| |exact SY]. apply T.
    - intros v Hv. rewrite (hidden_frozen s0 s v FZ) in Hv. eapply tree_ext; [| | |exact (TR v Hv)].
      + intros f. unfold f_vars. rewrite (fz_group _ _ FZ). auto.
      + unfold spec_of. cbn [sp_facs]. rewrite (fz_all _ _ FZ). auto.
      + intros w. symmetry. apply hidden_frozen. auto.
    - intros c J. rewrite (fz_vars _ _ FZ). split; auto. eapply positive_same; [exact FZ| |exact (PO c J)]. apply T.
    - exists s'. split.
      + rewrite Q1, EC, (fz_vars _ _ FZ). f_equal. unfold cond_gradient. apply map_ext. intros c. f_equal.
        * apply mean_ext. intros x. rewrite (features_ext _ _ c x (cs_h _ _ _ T)). apply features_ww.
        * apply mean_expected_same; auto. apply T. intros x. rewrite (features_ext _ _ c x (cs_h _ _ _ T)). apply features_ww.
      + split; [|eapply crf_gradient_pool; eauto].
        pose proof (crf_gradient_fresh es pos it true s E (cs_weak _ _ _ T)) as WK. rewrite Q1 in WK. apply fresh_weak in WK.
        constructor; auto.
        * eapply ctinv_frozen; [exact Q3|]. apply T.
        * eapply frozen_trans; eauto.
        * eapply exposed_frozen; [exact Q3|]. apply T.
        * intros f. rewrite Q2. apply T.
        * apply T.
        * unfold get_weights. rewrite Q2, (fz_tuners _ _ Q3). apply T.
  Qed.

  Theorem train_crf_ok s es pos floorf rand t combs info ws : weak s -> ctinv s -> en (r_g s) -> exposed s -> (forall i k, env_ok (es i k)) -> (forall i k, pos = evidence_order (es i k) (r_g s)) ->
    (exists a, g_ev (r_g s) a <> None) -> get_weights s = Ok ws -> 1 <= info_threads info ->
    (forall ws, length ws = length (tunable_clusters s) -> symmetric (with_weights (r_h s) (tunable_clusters s) ws) (spec_of (r_g s)) /\
       forall c, In c combs -> positive (weight (with_weights (r_h s) (tunable_clusters s) ws) (spec_of (r_g s))) (given (spec_of (r_g s)) c)) ->
    (forall v, BeliefSpec.hidden (spec_of (r_g s)) v -> tree_around (r_h s) (spec_of (r_g s)) v) ->
    (forall c, In c combs -> valid_comb (map vsize (g_vars (r_g s))) c) ->
    (forall k, exists it, wrapper_get floorf rand (mkTI combs None) combs (info_percentage info) k = Ok it /\ iter_samples it = Ok (drawn floorf rand combs (info_percentage info) k) /\ drawn floorf rand combs (info_percentage info) k <> []) ->
    combs <> [] ->
    let r := ideal_training (length (tunable_clusters s)) (fun k => cond_gradient_at s (drawn floorf rand combs (info_percentage info) k)) t 0 ws in
    exists s', train_crf floorf rand es pos t combs info s = (if snd r then Ret tt s' else Thr s') /\ cstate s s' (fst r) /\ g_pool (r_g s') = Some 1.
  Proof.
    intros WK CT EN EX E EP OB GW L TW TR V W NE r. unfold train_crf.
    assert (LW : length ws = length (tunable_clusters s)). { destruct (get_weights_ok s (wk_r _ _ WK)) as (ws' & GW' & LW & _). congruence. }
    destruct (choice_it (fun k => wrapper_get floorf rand (mkTI combs None) combs (info_percentage info) k)) as (its & ITS).
    { intros k. destruct (W k) as (it & -> & _). eauto. }
    eapply (train_ideal (cstate s)) with (its := its); auto.
    - intros s1 ws1 p. apply cstate_pool.
    - intros s1 ws1 T1. apply T1.
    - intros s1 ws1 ws' T1 PN L'. destruct (cstate_set s s1 ws1 ws' T1 L') as (s' & E1 & T' & P'). exists s'. rewrite P'. auto.
    - intros s1 ws1 ws'. apply cstate_refuse.
    - intros k s1 ws1 T1 PN. destruct (W k) as (it & E1 & E2 & E3). rewrite ITS in E1. injection E1 as <-.
      apply cstate_gradient with (s0 := s); auto.
      + intros ws2 L2. destruct (TW ws2 L2) as [X Y]. split; auto. intros c J. apply Y. eapply drawn_in; eauto.
      + intros c J. apply V. eapply drawn_in; eauto.
    - intros x. apply (ok_eqb N OK). auto.
    - constructor; auto. apply frozen_refl. apply ww_same; auto. apply WK.
  Qed.
End Conditional.
