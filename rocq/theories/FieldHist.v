(** Histories of calls on random fields: the last propagation agrees with the
    current weights *)
From Coq Require Import String List Arith Bool Lia Permutation Relations.
From Verif Require Import Res Num Categoric Combs Func FuncProofs GroupProofs FactorProofs FactorApi Special SpecialProofs
  Graph GraphLemmas Clusters Belief Query GraphInv EvidInv BeliefInv BigOp Tree Cycle BPStep BPRun GraphSpec Hist P_Graph BeliefSpec Sums Exact BeliefHist Queries
  Parts JointSpec Joint Train TrainHist Coherent TrainSpec Gradient TrainInv GradientRun.
Import ListNotations.
Open Scope nat_scope.

(** {1 Other objects} *)
Section Heap.
  Context {N : num}.
  Notation gst := (gst (N:=N)).
  Implicit Types s : gst.
  Variables H H' : nat -> func N.

  Lemma psi_heap s : core H s (g_all s) -> (forall f, In f (g_all s) -> H' f = H f) -> forall a b i j, psi H' s a b i j = psi H s a b i j.
  Proof.
    intros C E a b i j. unfold psi. destruct (act s a b) as [c|] eqn:A; auto. destruct (co_act _ _ _ C _ _ _ A) as (_ & J & _). rewrite E; auto.
  Qed.
  Lemma uw_heap s : core H s (g_all s) -> (forall f, In f (g_all s) -> H' f = H f) -> forall a i, uw H' s a i = uw H s a i.
  Proof.
    intros C E a i. unfold uw. f_equal.
    - apply prodL_ext. intros f J. rewrite E; auto. apply (co_un _ _ _ C a f J).
    - apply prodL_ext. intros b _. unfold evval. destruct (dis s a b) as [c|] eqn:D; auto. destruct (co_dis _ _ _ C _ _ _ D) as (_ & J & _). rewrite E; auto.
  Qed.
  Lemma weight_heap A x : (forall f, In f (sp_facs A) -> H' f = H f) -> weight_swapped H' A x = weight_swapped H A x.
  Proof. intros E. unfold weight_swapped. apply prodL_ext. intros f J. unfold swapped. rewrite E; auto. Qed.
  Lemma keeps_heap s s' : core H s (g_all s) -> (forall f, In f (g_all s) -> H' f = H f) -> keeps H s s' -> keeps H' s s'.
  Proof.
    intros C E K. destruct K. constructor; auto. intros a m Q. destruct (kp_merged a m Q) as [X|(e & Ee & X)]; auto.
    right. exists e. split; auto. rewrite <- X. apply merge_of_heap. intros f J. apply E. apply (co_un _ _ _ C a f J).
  Qed.
  Lemma ready_heap A k s r : (forall f, In f (sp_facs A) -> H' f = H f) -> ready H A k s r -> ready H' A k s r.
  Proof.
    intros E (Ek & s0 & x & ls & [P1 P2 P3 P4 P5 P6 P7 P8] & [S1 S2] & F). rewrite <- (ab_all _ _ P4) in E. split; auto. exists s0, x, ls.
    assert (EP := psi_heap s0 P1 E). assert (EU := uw_heap s0 P1 E). split; [|split].
    - constructor; auto. apply (core_heap H); auto. apply harmless_out; auto. rewrite weight_heap; auto. rewrite <- (ab_all _ _ P4). auto.
    - split; auto. apply keeps_heap; auto.
    - eapply Forall2_imp; [|exact F]. intros S f [[D1 D2 D3 D4] L]. split; auto. constructor; auto. intros T. destruct (D3 T) as (rank & R & X). exists rank. split; auto.
      intros FL. assert (FL' : floored H s0 k). { destruct FL as [FL|FL]; [left; auto|right]. intros a b i j Q1 Q2 Q3. rewrite <- EP. auto. }
      specialize (X FL'). intros a b Ia Ib Ad. destruct (X a b Ia Ib Ad) as (c & Pc & Q). exists c. split; auto. intros j Lj. rewrite Q by auto. f_equal.
      apply bigL_ext. intros i _. rewrite EP, EU. auto.
  Qed.
  Lemma calib_heap A s : (forall f, In f (sp_facs A) -> H' f = H f) -> calib H A s -> calib H' A s.
  Proof. intros E [P Q]. split; auto. intros r El. apply ready_heap; auto. Qed.
End Heap.

(** {1 Insertions forget the last propagation} *)
Section None.
  Context {N : num}.
  Variable H : nat -> func N.
  Notation gst := (gst (N:=N)).
  Implicit Types s : gst.
  Definition onone {B} (o : out gst B) : Prop := match o with Ret _ s' | Thr s' => g_last s' = None | _ => True end.
  Lemma onone_bind {B D} (o : out gst B) (f : B -> gst -> out gst D) : onone o -> (forall b s', g_last s' = None -> onone (f b s')) -> onone (obind o f).
  Proof. intros P Q. destruct o; simpl in *; auto. Qed.
  Lemma onone_lift {B} s' (r : res B) : g_last s' = None -> onone (lift r s').
  Proof. intros E. destruct r; simpl; auto. Qed.
  Lemma find_or_make_none s' v : g_last s' = None -> onone (find_or_make s' v).
  Proof.
    intros E. unfold find_or_make. destruct (locate s' v) as [[a l]|]; [|simpl; auto]. apply onone_bind. apply onone_lift; auto.
    intros w s1 E1. destruct (var_peqb v w); simpl; auto.
  Qed.
  Lemma hybrid_none s' a b v f : g_last s' = None -> onone (hybrid_insertion H s' a b v f).
  Proof.
    intros E. unfold hybrid_insertion. apply onone_bind. apply onone_lift; auto. intros w s1 E1. apply onone_bind. apply onone_lift; auto.
    intros m s2 E2. apply onone_bind. unfold set_dis_msg. destruct (dis s2 a b); simpl; auto. intros _ s3 E3. simpl. auto.
  Qed.
  Lemma add_none s d : match add_distribution H s d with Ret _ s' => g_last s' = None | Thr s' => g_last s' = None \/ s' = s | _ => True end.
  Proof.
    destruct d as [f|]; [|simpl; auto]. unfold add_distribution. destruct (mem f (g_all s)); [simpl; auto|].
    assert (Q : forall o : out gst unit, onone o -> match o with Ret _ s' => g_last s' = None | Thr s' => g_last s' = None \/ s' = s | _ => True end) by (intros []; simpl; auto). apply Q.
    apply onone_bind; [|simpl; auto].
    assert (P1 : onone (add_unary H (reset_belief s) f)).
    { unfold add_unary. apply onone_bind. apply onone_lift; auto. intros v s1 E1. apply onone_bind. apply find_or_make_none; auto.
      intros [a l] s2 E2. simpl. auto. }
    assert (P2 : onone (add_binary H (reset_belief s) f)).
    { unfold add_binary. apply onone_bind. apply onone_lift; auto. intros va s1 E1. apply onone_bind. apply onone_lift; auto. intros vb s2 E2.
      apply onone_bind. apply find_or_make_none; auto. intros [a la] s3 E3. apply onone_bind. apply find_or_make_none; auto. intros [b lb] s4 E4.
      destruct (is_some (act s4 a b) || is_some (dis s4 a b)); [simpl; auto|]. unfold connect. destruct la as [i|x], lb as [j|y]; try (apply hybrid_none; auto).
      - apply onone_bind. apply onone_lift; auto. intros ci s5 E5. destruct (i =? j); [simpl; auto|]. apply onone_bind. apply onone_lift; auto.
        intros cj s6 E6. simpl. auto.
      - simpl. auto. }
    destruct (length (fvars H f)) as [|[|[|n]]]; simpl; auto.
  Qed.
End None.

(** {1 Calls on random fields} *)
Section Fresh.
  Context {N : num}.
  Notation rst := (rst (N:=N)).
  Implicit Types s : rst.
  (** no propagation is remembered, or the graph and the objects are the same *)
  Definition fresh s s' : Prop := r_top s <= r_top s' /\
    (g_last (r_g s') = None \/ r_g s' = r_g s /\ forall f, f < r_top s -> r_h s' f = r_h s f).
  Definition ofresh {B} s (o : out rst B) : Prop := match o with Ret _ s' | Thr s' => fresh s s' | _ => True end.
  Lemma fresh_refl s : fresh s s.
  Proof. split; auto. Qed.
  Lemma fresh_trans s t u : fresh s t -> fresh t u -> fresh s u.
  Proof.
    intros [L1 A] [L2 B]. split. lia. destruct B as [B|[B1 B2]]; auto. destruct A as [A|[A1 A2]]. left. congruence.
    right. split. congruence. intros f L. rewrite B2 by lia. auto.
  Qed.
  Lemma ofresh_bind {B D} s (o : out rst B) (f : B -> rst -> out rst D) : ofresh s o -> (forall b t, fresh s t -> ofresh s (f b t)) -> ofresh s (obind o f).
  Proof. destruct o; simpl; auto. Qed.
  Lemma ofresh_lift {B} s t (r : res B) : fresh s t -> ofresh s (lift r t).
  Proof. destruct r; simpl; auto. Qed.
  Lemma ofresh_fold {B} (f : B -> rst -> out rst unit) l s : forall t, fresh s t -> (forall b t, fresh s t -> ofresh s (f b t)) -> ofresh s (ofold f l t).
  Proof. induction l as [|b l IH]; simpl; intros t E F; auto. apply ofresh_bind; auto. Qed.
  Lemma ofresh_catch s o : ofresh s o -> ofresh s (try_catch o).
  Proof. destruct o; simpl; auto. Qed.
  Lemma ofresh_from {B} s t (o : out rst B) : fresh s t -> ofresh t o -> ofresh s o.
  Proof. intros C. destruct o; simpl; auto; intros D; eapply fresh_trans; eauto. Qed.
  Lemma ofresh_map {B} s (f : B -> answer (N:=N)) o : ofresh s o -> ofresh s (rmapo f o).
  Proof. destruct o; simpl; auto. Qed.
  Lemma on_g_add_fresh s d : ofresh s (on_g (fun g => add_distribution (r_h s) g d) s).
  Proof.
    unfold on_g. pose proof (add_none (r_h s) (r_g s) d) as Q. destruct (add_distribution (r_h s) (r_g s) d); simpl in *; auto; split; auto.
    destruct Q as [Q| ->]; [left; exact Q|right; split; auto].
  Qed.
  Lemma alloc_fresh s f : fresh s (snd (alloc s f)).
  Proof. split. simpl. lia. right. split; auto. intros k L. simpl. apply fupd_ne. lia. Qed.
  Lemma add_const_fresh s d : ofresh s (add_const d s).
  Proof. unfold add_const. apply ofresh_bind. apply on_g_add_fresh. intros _ t C. destruct d; simpl; auto. Qed.
  Lemma copy_const_fresh s f : ofresh s (copy_const f s).
  Proof.
    unfold copy_const. apply ofresh_bind. apply ofresh_lift, fresh_refl. intros c t C. eapply ofresh_from. exact C.
    simpl. eapply ofresh_from; [apply (alloc_fresh t c)|apply add_const_fresh].
  Qed.
  Lemma absorb_const_fresh s l copy : ofresh s (absorb_const l copy s).
  Proof.
    unfold absorb_const. apply ofresh_fold. apply fresh_refl. intros f t C. apply ofresh_catch. eapply ofresh_from. exact C.
    destruct copy. apply copy_const_fresh. apply add_const_fresh.
  Qed.
  (** weights are only changed after the last propagation is forgotten *)
  Definition asleep s s' : Prop := r_top s <= r_top s' /\ r_g s' = r_g s.
  Lemma tuner_weight_asleep t w s : match tuner_set_weight t w s with Ret _ s' | Thr s' => asleep s s' | _ => True end.
  Proof.
    unfold tuner_set_weight. assert (G : forall l u, asleep s u -> match ofold (base_set_weight w) l u with Ret _ s' | Thr s' => asleep s s' | _ => True end).
    { induction l as [|b l IH]; intros u A; simpl; auto. unfold base_set_weight at 1. destruct (exp_set_weight (r_h u (bt_fac b)) w); simpl; auto. apply IH. exact A. }
    apply G. split; auto.
  Qed.
  Lemma set_weights_fresh s ws : match set_weights ws s with Ret _ s' => fresh s s' | Thr s' => rinv s -> fresh s s' | _ => True end.
  Proof.
    unfold set_weights. destruct (Nat.eqb_spec (length ws) (length (r_tuners s))) as [L|L]; [|intros _; apply fresh_refl].
    assert (G : forall l u, r_top s <= r_top u -> match ofold (fun p s => tuner_set_weight (fst p) (snd p) s) l u with Ret _ s' | Thr s' => r_top s <= r_top s' | _ => True end).
    { induction l as [|p l IH]; intros u A; simpl; auto. pose proof (tuner_weight_asleep (fst p) (snd p) u) as Q. destruct (tuner_set_weight (fst p) (snd p) u); simpl in *; auto; destruct Q; [apply IH|]; lia. }
    specialize (G (combine (r_tuners s) ws) s (le_n _)).
    destruct (ofold _ (combine (r_tuners s) ws) s) as [[] u|u| | |] eqn:E; simpl; auto. split; auto.
    intros I. exfalso. destruct (set_weights_ok s ws I L) as (h' & Q & _). unfold set_weights in Q. rewrite L, Nat.eqb_refl, E in Q. discriminate.
  Qed.
  Lemma add_tunable_fresh s d share : ofresh s (add_tunable d share s).
  Proof.
    unfold add_tunable. pose proof (add_none (r_h s) (r_g s) d) as Q. unfold on_g.
    destruct (add_distribution (r_h s) (r_g s) d) as [[] g|g| | |]; cbn [obind ofresh]; auto.
    2:{ split; auto. destruct Q as [Q| ->]; [left; exact Q|right; split; auto]. }
    destruct d as [f|]; simpl; auto.
    assert (K : forall t, r_top s <= r_top t -> r_g t = g -> fresh s t) by (intros t L E; split; auto; left; congruence).
    destruct (make_tuner (set_g s g) f) as [t| | | |]; simpl; auto. destruct share as [gr|]; [|simpl; apply K; auto].
    destruct (find_tuner _ gr) as [i| | | |]; simpl; auto. destruct (vget (r_tuners s) i) as [old| | | |]; simpl; auto.
    match goal with |- ofresh s (obind (lift ?r ?u) _) => destruct r as [w| | | |]; simpl; [|apply K; auto|auto|auto|auto] end.
    match goal with |- ofresh s (tuner_set_weight ?a ?b ?u) => pose proof (tuner_weight_asleep a b u) as A; destruct (tuner_set_weight a b u); simpl in *; auto; destruct A as [A1 A2]; apply K; auto end.
  Qed.
  Lemma copy_tunable_fresh s f share : ofresh s (copy_tunable f share s).
  Proof.
    unfold copy_tunable. apply ofresh_bind. apply ofresh_lift, fresh_refl. intros c t C. eapply ofresh_from. exact C.
    simpl. eapply ofresh_from; [apply (alloc_fresh t c)|apply add_tunable_fresh].
  Qed.
  Lemma insert_tunable_fresh s copy f share : ofresh s (insert_tunable copy f share s).
  Proof. unfold insert_tunable. destruct copy. apply copy_tunable_fresh. apply add_tunable_fresh. Qed.
  Lemma absorb_tunable_fresh s copy l : ofresh s (absorb_tunable copy l s).
  Proof.
    unfold absorb_tunable. apply ofresh_fold. apply fresh_refl. intros f t C. apply ofresh_catch. eapply ofresh_from. exact C. apply insert_tunable_fresh.
  Qed.
  Lemma absorb_clusters_fresh s copy cs : ofresh s (absorb_clusters copy cs s).
  Proof.
    unfold absorb_clusters. apply ofresh_fold. apply fresh_refl. intros c t C. apply ofresh_catch. eapply ofresh_from. exact C.
    unfold absorb_cluster. destruct c as [|f c]; simpl; auto. apply ofresh_bind. apply insert_tunable_fresh. intros _ u Cu.
    apply ofresh_fold; auto. intros g v Cv. eapply ofresh_from. exact Cv. apply insert_tunable_fresh.
  Qed.
End Fresh.

(** {1 The invariant} *)
Section Alert.
  Context {N : num} (OK : num_ok N).
  Notation rst := (rst (N:=N)).
  Implicit Types s : rst.

  (** the variables, evidences and factors of a random field *)
  Definition contents s : spec := spec_of (r_g s).
  (** queries and gradients are done when an assignment with a positive weight
      agrees with the evidences, and the factors between hidden variables join
      variables of equal sizes *)
  Definition answerable s (op : rop (N:=N)) : Prop :=
    match op with
    | RGraph op => sound_query (r_h s) (contents s) op
    | RGradient _ _ => balanced (r_h s) (bare s) /\ positive (weight_swapped (r_h s) (bare s)) (bare s)
    | _ => True
    end.
  Definition alert s (op : rop (N:=N)) : Prop := steady True s op /\ answerable s op.
  Definition current s : Prop := full True s /\ calib (r_h s) (contents s) (r_g s).

  Lemma fresh_calib s s' : rinv s -> coh True s' -> en (r_g s') -> calib (r_h s) (contents s) (r_g s) -> fresh s s' -> calib (r_h s') (contents s') (r_g s').
  Proof.
    intros I C' E CA [L F]. destruct F as [F|[F1 F2]]. apply calib_none; auto. unfold contents. rewrite F1.
    apply calib_heap with (H := r_h s); auto. intros f J. apply F2. apply (ri_top _ I). exact J.
  Qed.

  Lemma gradient_last s e A : coh True s -> (forall a, g_ev (r_g s) a = None) -> abs (r_g s) A -> g_pool (r_g s) <> None -> env_ok e -> balanced (r_h s) A -> positive (weight_swapped (r_h s) A) A ->
    let g0 := reset_belief (r_g s) in
    exists g r, propagate (r_h s) e SUM g0 = Ret tt g /\ ready (r_h s) A SUM g r /\ keeps (r_h s) g0 g /\ g_pool g <> None /\ g_last g = Some r.
  Proof.
    intros C EV AB EN E B P g0. set (H := r_h s) in *.
    assert (HG : goods H) by (apply (coh_good OK True s C)).
    pose proof (ch_inv _ _ C) as [X Y].
    assert (C0 : core H g0 (g_all g0)) by (eapply core_same; [| | |exact X]; auto).
    assert (CS0 : clus g0) by (eapply clus_same; [| | | |exact Y]; auto).
    assert (CL : clean g0) by (apply no_evidence_clean; auto).
    assert (AB0 : abs g0 A) by (destruct AB; constructor; auto).
    pose proof (balanced_evened H g0 A C0 AB0 CL B) as EVN.
    destruct (positive_node H g0 A C0 AB0 P) as (x & XR & XO & XP).
    destruct (positive_parts OK H HG g0 A C0 CL EVN AB0 x XR XO XP) as (X1 & X2 & _).
    destruct (g_pool g0) as [pool|] eqn:PO; [|contradiction].
    destruct (propagate_ok OK H HG (g_all g0) g0 C0 CS0 CL EVN x X1 X2 e SUM g0 pool E (keeps_refl H g0) eq_refl PO) as (r & g & Es & El & [D1 D2 D3] & D4 & _).
    exists g, r. split; auto. split.
    - split; auto. exists g0, x, (map cl_nodes (g_cl g0)). split; [|split; auto]. constructor; auto. apply (cs_comp _ CS0).
    - split. apply D1. split; auto. rewrite D4. discriminate.
  Qed.

  Lemma gradient_calib s e it : coh True s -> g_pool (r_g s) <> None -> env_ok e -> answerable s (RGradient it 1) ->
    match rf_gradient e it s with Ret _ s' | Thr s' => r_h s' = r_h s /\ g_last (r_g s') <> None /\
      forall r, g_last (r_g s') = Some r -> ready (r_h s) (contents s') (pr_kind r) (r_g s') r | _ => True end.
  Proof.
    intros C PN E [BA PO]. unfold rf_gradient.
    assert (R1 : exists s1, (if existsb (fun a => is_some (g_ev (r_g s) a)) (seq 0 (gsize (r_g s))) then on_g (remove_all_evidences e) s else Ret tt s) = Ret tt s1 /\
      coh True s1 /\ (forall a, g_ev (r_g s1) a = None) /\ s1 = set_g s (r_g s1) /\ g_vars (r_g s1) = g_vars (r_g s) /\ g_all (r_g s1) = g_all (r_g s) /\ g_pool (r_g s1) <> None).
    { destruct (existsb _ _) eqn:EX.
      - destruct (remove_all_coh True s e C E) as (g & Eg & Cg & Ev & EV' & EA). exists (set_g s g). unfold on_g. rewrite Eg. splits; auto.
        pose proof (remove_all_pool (r_g s) e) as Q. rewrite Eg in Q. simpl in Q. simpl. rewrite Q. auto.
      - exists s. assert (NEV : forall a, g_ev (r_g s) a = None).
        { intros a. destruct (g_ev (r_g s) a) as [k|] eqn:Q; auto. exfalso. destruct (co_ev _ _ _ (proj1 (ch_inv _ _ C)) a k Q) as (v & Ha & _).
          assert (existsb (fun a => is_some (g_ev (r_g s) a)) (seq 0 (gsize (r_g s))) = true); [|congruence].
          apply existsb_exists. exists a. split. apply in_seq. apply var_at_lt in Ha. unfold gsize in *. lia. rewrite Q. auto. }
        splits; auto. destruct s; auto. }
    destruct R1 as (s1 & -> & C1 & NEV & E1 & EV1 & EA1 & PN1). cbn [obind].
    assert (EH : r_h s1 = r_h s) by (rewrite E1; auto).
    assert (AB : abs (r_g s1) (bare s)). { constructor; simpl; auto. }
    set (s2 := set_g s1 (reset_belief (r_g s1))).
    destruct (gradient_last s1 e (bare s) C1 NEV AB PN1 E) as (g & r & Q1 & Q2 & Q3 & Q4 & Q5); try rewrite EH; auto.
    unfold on_g. change (r_h s2) with (r_h s1). change (r_g s2) with (reset_belief (r_g s1)). rewrite Q1. cbn [obind].
    assert (AG : abs g (bare s)) by (eapply keeps_abs; [exact Q3|]; destruct AB; constructor; auto).
    assert (ND : NoDup (map vkey (g_vars g))) by (rewrite (ab_vars _ _ AG); simpl; rewrite <- EV1; apply (co_vars _ _ _ (proj1 (ch_inv _ _ C1)))).
    assert (FIN : forall r0, g_last g = Some r0 -> ready (r_h s) (spec_of g) (pr_kind r0) g r0).
    { intros r0 E0. rewrite Q5 in E0. injection E0 as <-. destruct Q2 as [Ek Q2]. rewrite Ek. apply (ready_spec (r_h s) (bare s)).
      apply (abs_same_spec g); auto. apply spec_of_abs; auto. rewrite <- EH. split; auto. }
    change (r_g (set_g s2 g)) with g. destruct (g_pool g) as [p|] eqn:EP; [|congruence].
    match goal with |- match lift ?x _ with _ => _ end => destruct x; simpl; auto; splits; auto; rewrite ?Q5; try discriminate; auto end.
  Qed.

  Theorem rcall_current e op s : current s -> rok op s -> alert s op -> env_ok e ->
    match rcall e op s with Ret _ t | Thr t => current t | _ => True end.
  Proof.
    intros [F CA] Hop [G AN] E. pose proof (rcall_full True e op s F Hop G E) as RF. pose proof (ch_r _ _ (fl_coh _ _ F)) as RI.
    assert (K : ofresh s (rcall e op s) -> match rcall e op s with Ret _ t | Thr t => current t | _ => True end).
    { intros Q. destruct (rcall e op s) as [a t|t| | |]; simpl in *; auto; (split; auto; eapply fresh_calib; eauto; apply RF). }
    destruct op; lazymatch goal with |- context [RGradient] => idtac | |- context [RGraph] => idtac | _ => apply K; cbn [rcall]; unfold runit; try apply ofresh_map end.
    - apply alloc_fresh.
    - apply add_const_fresh.
    - apply copy_const_fresh.
    - apply absorb_const_fresh.
    - apply add_tunable_fresh.
    - apply copy_tunable_fresh.
    - apply absorb_tunable_fresh.
    - apply absorb_clusters_fresh.
    - pose proof (set_weights_fresh s ws) as Q. destruct (set_weights ws s); simpl in *; auto.
    - unfold set_all_ones. destruct (get_weights s) as [ws| | | |]; simpl; auto. 2: apply fresh_refl.
      pose proof (set_weights_fresh s (map (fun _ => n1) ws)) as Q. destruct (set_weights _ s); simpl in *; auto.
    - clear K. cbn [rcall] in *. pose proof (fl_en _ _ F) as EN. unfold weights_gradient, scoped, on_g, set_pool_size in *. rewrite EN in *. destruct G as [_ L]. simpl in L.
      destruct (Nat.eqb_spec threads 0); [lia|].
      assert (Z : forall s1, coh True s1 -> g_pool (r_g s1) <> None -> r_h s1 = r_h s -> bare s1 = bare s ->
        match (match rf_gradient e it s1 with
        | Ret a s => Ret a (set_g s (set_pool (r_g s) (Some 1))) | Thr s => Thr (set_g s (set_pool (r_g s) (Some 1))) | Undef => Undef | NotNum => NotNum | NoStop => NoStop end) with
        Ret _ t | Thr t => calib (r_h t) (contents t) (r_g t) | _ => True end).
      { intros s1 C1 P1 E1 E2. pose proof (gradient_calib s1 e it C1 P1 E) as Q. unfold answerable in *. rewrite E1, E2 in Q. specialize (Q AN).
        destruct (rf_gradient e it s1) as [a t|t| | |]; auto; destruct Q as (Q1 & Q2 & Q3); (split; [reflexivity|]); cbn [r_h r_g set_g]; intros r El;
          rewrite Q1; eapply ready_ext; try (apply Q3; exact El); try reflexivity; (constructor; try reflexivity; auto; intros cl ts I T; left; eauto). }
      destruct (threads =? 1); cbn [obind] in *.
      + assert (Q : set_g s (r_g s) = s) by (destruct s; auto). rewrite Q in *. specialize (Z s (fl_coh _ _ F)). rewrite EN in Z. specialize (Z ltac:(discriminate) eq_refl eq_refl).
        destruct (rf_gradient e it s); cbn [rmapo obind] in *; auto; exact (conj RF Z).
      + specialize (Z (set_g s (set_pool (r_g s) (Some threads)))).
        assert (C1 : coh True (set_g s (set_pool (r_g s) (Some threads)))).
        { apply coh_g; auto. apply F. apply step_g; auto. pose proof (ch_inv _ _ (fl_coh _ _ F)) as [X Y].
          split. eapply core_same; [| | |exact X]; auto. eapply clus_same; [| | | |exact Y]; auto. exact (ch_clean _ _ (fl_coh _ _ F)). }
        specialize (Z C1 ltac:(discriminate) eq_refl eq_refl).
        destruct (rf_gradient e it _); cbn [rmapo obind] in *; auto; exact (conj RF Z).
    - clear K. cbn [rcall] in *. unfold on_g in *. destruct G as [[G1 G2] G3]. pose proof (fl_coh _ _ F) as C.
      assert (Z : forall g, ends (call (r_h s) e op (r_g s)) g -> full True (set_g s g) -> current (set_g s g)).
      { intros g En FG. split; auto. cbn [r_h r_g set_g].
        pose proof (call_calib OK (r_h s) (coh_good OK True s C) (contents s) e op (r_g s) g (ch_inv _ _ C) (coh_abs True s C) (ch_clean _ _ C Logic.I) CA E (conj G1 (conj (G2 Logic.I) AN)) En) as [CP CR].
        split; auto. intros r El. eapply ready_spec; [|apply CR; auto]. apply (abs_same_spec g).
        - pose proof (call_refines (r_h s) (coh_good OK True s C) (r_g s) (contents s) e op (ch_inv _ _ C) (coh_abs True s C) E G1) as Q.
          unfold sp_next. destruct (sp_step (fvars (r_h s)) (contents s) op) as [[t A']|].
          + destruct Q as (s2 & Q2 & I2 & AB2 & _). rewrite Q2 in En. simpl in *. destruct t; destruct En as [En|[b En]]; try discriminate; injection En; intros; subst; auto.
          + destruct En as [En|[b En]]; rewrite En in Q; simpl in Q; eapply keeps_abs; eauto; apply (coh_abs True s C).
        - apply (coh_abs True _ (fl_coh _ _ FG)). }
      destruct (call (r_h s) e op (r_g s)) as [a g|g| | |]; auto; apply Z; auto; [right; eauto|left; auto].
  Qed.

  Theorem rreach_current h top s : (forall f, built (h f)) -> rreach h top alert s -> current s.
  Proof.
    intros Hb R. induction R as [|s e op a s' R IH Hop G E Q|s e op s' R IH Hop G E Q].
    - split. apply full_empty; auto. apply calib_none; reflexivity.
    - pose proof (rcall_current e op s IH Hop G E) as X. rewrite Q in X. auto.
    - pose proof (rcall_current e op s IH Hop G E) as X. rewrite Q in X. auto.
  Qed.
  Lemma current_usable s : current s -> usable (r_h s) (contents s) (r_g s).
  Proof. intros [F CA]. pose proof (fl_coh _ _ F) as C. constructor; auto. apply C. apply (coh_abs True s C). apply C. exact Logic.I. Qed.
End Alert.
