(** What the tuners refer to, and the pool of threads, along the calls *)
From Coq Require Import String List Arith Bool Lia Permutation Relations.
From Verif Require Import Res Num Categoric Combs Func FuncProofs GroupProofs FactorProofs FactorApi Special SpecialProofs
  Graph GraphLemmas Clusters Belief Query GraphInv EvidInv BeliefInv GraphSpec Hist P_Graph BeliefSpec BeliefHist Train TrainHist Coherent.
Import ListNotations.
Open Scope nat_scope.

Section Pool.
  Context {N : num}.
  Variable H : nat -> func N.
  Notation gst := (gst (N:=N)).
  Implicit Types s : gst.
  (** the pool exists, with one thread *)
  Definition en s : Prop := g_pool s = Some 1.
  Definition oen {B} (o : out gst B) : Prop := match o with Ret _ s | Thr s => en s | _ => True end.
  Lemma oen_bind {B D} (o : out gst B) (f : B -> gst -> out gst D) : oen o -> (forall b s, en s -> oen (f b s)) -> oen (obind o f).
  Proof. destruct o; simpl; auto. Qed.
  Lemma oen_lift {B} s (r : res B) : en s -> oen (lift r s).
  Proof. destruct r; simpl; auto. Qed.
  Lemma oen_map {B} (f : B -> answer (N:=N)) (o : out gst B) : oen o -> oen (omap f o).
  Proof. destruct o; simpl; auto. Qed.
  Lemma opool_en {B} s (o : out gst B) : en s -> opool s o -> oen o.
  Proof. destruct o; simpl; unfold en; auto; intros E ->; auto. Qed.
  Lemma scoped_en {A} n (body : gst -> out gst A) s : en s -> 1 <= n -> oen (scoped_pool n body s).
  Proof.
    intros E L. unfold scoped_pool, set_pool_size. rewrite E. destruct (Nat.eqb_spec n 0); [lia|].
    destruct (n =? 1); cbn [obind]; [destruct (body s)|destruct (body (set_pool s (Some n)))]; simpl; auto; reflexivity.
  Qed.
  Lemma check_en e k n s : en s -> 1 <= n -> oen (check_propagation H e k n s).
  Proof. intros E L. unfold check_propagation. destruct (would_need s k); [|simpl; auto]. apply scoped_en; auto. Qed.
  Lemma marginal_en e k v n s : en s -> 1 <= n -> oen (marginal_query H e k v n s).
  Proof. intros E L. unfold marginal_query. apply oen_bind. apply check_en; auto. intros _ t Et. destruct (locate t v) as [[a l]|]; [|simpl; auto]. apply oen_lift; auto. Qed.
  Lemma joint_en e g n s : en s -> 1 <= n -> oen (get_joint H e g n s).
  Proof.
    intros E L. unfold get_joint. apply oen_bind. apply check_en; auto. intros _ t Et. apply oen_bind. apply oen_lift; auto. intros ll t1 E1. apply oen_lift; auto.
  Qed.
  Lemma call_en e op s : en s -> (forall n, query_threads op = Some n -> 1 <= n) -> oen (call H e op s).
  Proof.
    intros E Q. destruct op; simpl call; try apply oen_map; simpl in Q.
    - eapply opool_en; eauto. apply add_pool.
    - eapply opool_en; eauto. apply set_pool_same.
    - unfold set_evidence_name. apply oen_bind. apply oen_lift; auto. intros v t Et. eapply opool_en; eauto. apply set_pool_same.
    - eapply opool_en; eauto. apply remove_pool.
    - unfold remove_evidence_name. apply oen_bind. apply oen_lift; auto. intros v t Et. eapply opool_en; eauto. apply remove_pool.
    - eapply opool_en; eauto. apply removes_pool.
    - unfold remove_evidences_names. apply oen_bind. apply oen_lift; auto. intros v t Et. eapply opool_en; eauto. apply removes_pool.
    - eapply opool_en; eauto. apply remove_all_pool.
    - apply marginal_en; auto.
    - unfold get_marginal_name. apply oen_bind. apply oen_lift; auto. intros. apply marginal_en; auto.
    - unfold get_map. apply oen_bind. apply marginal_en; auto. intros. apply oen_lift; auto.
    - unfold get_map_name. apply oen_bind. apply oen_lift; auto. intros. unfold get_map. apply oen_bind. apply marginal_en; auto. intros. apply oen_lift; auto.
    - unfold get_hidden_map. apply oen_bind. apply check_en; auto. intros. apply oen_lift; auto.
    - apply joint_en; auto.
    - unfold get_joint_names. apply oen_bind. apply oen_lift; auto. intros. apply oen_bind. apply oen_lift; auto. intros. apply joint_en; auto.
    - apply scoped_en; auto.
    - simpl. auto.
  Qed.
End Pool.

Section Tuners.
  Context {N : num}.
  Notation rst := (rst (N:=N)).
  Notation rop := (rop (N:=N)).
  Implicit Types s : rst.

  (** the nodes and the positions stored by a tuner are those of the variables
      of its factor *)
  Definition tuner_ok s (b : btuner) : Prop :=
    bt_fac b < r_top s /\
    match bt_kind b with
    | TUnary a => exists v, f_vars (r_h s (bt_fac b)) = [v] /\ var_at (r_g s) a v /\ bt_idx b = [a]
    | TBinary a c => exists v w, f_vars (r_h s (bt_fac b)) = [v; w] /\ var_at (r_g s) a v /\ var_at (r_g s) c w /\ bt_idx b = [a; c]
    | THidObs _ _ _ => False
    end.
  Definition tinv s : Prop := forall t b, In t (r_tuners s) -> In b (bases t) -> tuner_ok s b.
  Definition gkeys s : Prop := NoDup (map vkey (g_vars (r_g s))).

  Lemma var_at_le s s' a v : rle s s' -> var_at (r_g s) a v -> var_at (r_g s') a v.
  Proof. intros L Ha. unfold var_at in *. destruct (rl_gvars _ _ L) as [l ->]. rewrite nth_error_app1; auto. apply nth_error_Some. congruence. Qed.
  Lemma tuner_ok_le s s' b : rle s s' -> tuner_ok s b -> tuner_ok s' b.
  Proof.
    intros L [T Q]. split. pose proof (rl_top _ _ L). lia. unfold f_vars in *. rewrite (rl_vars _ _ L _ T).
    destruct (bt_kind b); auto.
    - destruct Q as (v & Q1 & Q2 & Q3). exists v. splits; auto. eapply var_at_le; eauto.
    - destruct Q as (v & w & Q1 & Q2 & Q3 & Q4). exists v, w. splits; auto; eapply var_at_le; eauto.
  Qed.
  Lemma tinv_le s s' : rle s s' -> r_tuners s' = r_tuners s -> tinv s -> tinv s'.
  Proof. intros L E T t b It Ib. rewrite E in It. eapply tuner_ok_le; eauto. Qed.

  Lemma find_var_ok (bigger : list var) v k : find_var bigger v = Some k -> nth_error bigger k = Some v.
  Proof.
    revert k. induction bigger as [|x r IH]; simpl; intros k Q; [discriminate|]. destruct (var_peqb x v) eqn:E.
    - injection Q as <-. apply var_peqb_eq in E. simpl. congruence.
    - destruct (find_var r v) as [j|]; [|discriminate]. injection Q as <-. simpl. auto.
  Qed.
  Lemma finder_idx (f : func N) bigger fd : make_finder f bigger = Ok fd -> fd_func fd = f /\ Forall2 (fun v k => nth_error bigger k = Some v) (f_vars f) (fd_idx fd).
  Proof.
    unfold make_finder. intros Q. apply rbind_ok in Q as (ix & Q & [= <-]). simpl. split; auto. unfold get_indices in Q. destruct (_ <? _); [discriminate|].
    clear - Q. revert ix Q. induction (f_vars f) as [|v l IH]; simpl; intros ix Q. injection Q as <-. constructor.
    destruct (find_var bigger v) as [k|] eqn:E; [|discriminate]. cbn [rbind] in Q. apply rbind_ok in Q as (r & Q & [= <-]). constructor; auto. apply find_var_ok; auto.
  Qed.
  Lemma node_of_at s v a : NoDup (map vkey (g_vars (r_g s))) -> node_of (r_g s) v = Ok a -> exists w, var_at (r_g s) a w /\ vkey w = vkey v.
  Proof.
    intros ND. unfold node_of, locate. destruct (find_node (r_g s) v) as [b|] eqn:E; [|discriminate].
    assert (Q : exists w, var_at (r_g s) b w /\ vkey w = vkey v) by (apply find_node_spec; auto).
    destruct (g_ev (r_g s) b). intros [= <-]; auto. destruct (find_pos _ _); intros [= <-]; auto.
  Qed.
  Lemma make_tuner_ok s f t : NoDup (map vkey (g_vars (r_g s))) -> f < r_top s -> make_tuner s f = Ok t -> tuner_ok s t.
  Proof.
    intros ND L Q. pose proof (make_tuner_fac _ _ _ Q) as Ef. split. congruence. unfold make_tuner in Q.
    assert (UN : forall a v k, node_of (r_g s) v = Ok a -> nth_error (g_vars (r_g s)) k = Some v -> k = a).
    { intros a v k Qa Hk. destruct (node_of_at s v a ND Qa) as (w & Hw & Ek). eapply var_at_inj; eauto. }
    destruct (f_vars (r_h s f)) as [|v [|w [|]]] eqn:FV; try discriminate.
    - apply rbind_ok in Q as (a & Qa & Q). apply rbind_ok in Q as (fd & Qf & [= <-]). simpl. destruct (finder_idx _ _ _ Qf) as [_ F]. rewrite FV in F. inversion F as [|? k ? l Hk F']; subst. inversion F'; subst.
      assert (k = a) by (eapply UN; eauto). subst k. exists v. splits; auto.
    - apply rbind_ok in Q as (a & Qa & Q). apply rbind_ok in Q as (b & Qb & Q). apply rbind_ok in Q as (fd & Qf & Q).
      apply rbind_ok in Q as (va & _ & Q). apply rbind_ok in Q as (vb & _ & Q). destruct (var_peqb v va && var_peqb w vb); inversion Q; subst. simpl.
      destruct (finder_idx _ _ _ Qf) as [_ F]. rewrite FV in F. inversion F as [|? k ? l Hk F']; subst. inversion F' as [|? k' ? l' Hk' F'']; subst. inversion F''; subst.
      assert (k = a) by (eapply UN; eauto). assert (k' = b) by (eapply UN; eauto). subst k k'. exists v, w. splits; auto.
  Qed.
End Tuners.

(** {1 Along the calls} *)
Section Full.
  Context {N : num} (OK : num_ok N).
  Notation rst := (rst (N:=N)).
  Notation rop := (rop (N:=N)).
  Implicit Types s : rst.

  (** a call that keeps the tuners, and the pool if there is one *)
  Definition calm s s' : Prop := r_tuners s' = r_tuners s /\ (en (r_g s) -> en (r_g s')).
  Definition ocalm {B} s (o : out rst B) : Prop := match o with Ret _ s' | Thr s' => calm s s' | _ => True end.
  Lemma calm_refl s : calm s s.
  Proof. split; auto. Qed.
  Lemma calm_trans s t u : calm s t -> calm t u -> calm s u.
  Proof. intros [A B] [C D]. split; auto. congruence. Qed.
  Lemma ocalm_bind {B D} s (o : out rst B) (f : B -> rst -> out rst D) : ocalm s o -> (forall b t, calm s t -> ocalm s (f b t)) -> ocalm s (obind o f).
  Proof. destruct o; simpl; auto. Qed.
  Lemma ocalm_lift {B} s t (r : res B) : calm s t -> ocalm s (lift r t).
  Proof. destruct r; simpl; auto. Qed.
  Lemma ocalm_fold {B} (f : B -> rst -> out rst unit) l s : forall t, calm s t -> (forall b t, calm s t -> ocalm s (f b t)) -> ocalm s (ofold f l t).
  Proof. induction l as [|b l IH]; simpl; intros t E F; auto. apply ocalm_bind; auto. Qed.
  Lemma ocalm_catch s o : ocalm s o -> ocalm s (try_catch o).
  Proof. destruct o; simpl; auto. Qed.
  Lemma ocalm_from {B} s t (o : out rst B) : calm s t -> ocalm t o -> ocalm s o.
  Proof. intros C. destruct o; simpl; auto; intros D; eapply calm_trans; eauto. Qed.
  Lemma on_g_calm {B} s t (m : gst (N:=N) -> out _ B) : calm s t -> (en (r_g t) -> oen (m (r_g t))) -> ocalm s (on_g m t).
  Proof. intros [C1 C2] E. unfold on_g. destruct (m (r_g t)); simpl in *; auto; split; auto. Qed.

  Lemma add_calm s d : ocalm s (on_g (fun g => add_distribution (r_h s) g d) s).
  Proof. apply on_g_calm. apply calm_refl. intros E. eapply opool_en; eauto. apply add_pool. Qed.
  Lemma add_const_calm s d : ocalm s (add_const d s).
  Proof. unfold add_const. apply ocalm_bind. apply add_calm. intros _ t C. destruct d; simpl; auto. Qed.
  Lemma copy_const_calm s f : ocalm s (copy_const f s).
  Proof.
    unfold copy_const. apply ocalm_bind. apply ocalm_lift, calm_refl. intros c t C. simpl. eapply ocalm_from. exact C.
    eapply ocalm_from; [|apply add_const_calm]. split; auto.
  Qed.
  Lemma absorb_const_calm s l copy : ocalm s (absorb_const l copy s).
  Proof.
    unfold absorb_const. apply ocalm_fold. apply calm_refl. intros f t C. apply ocalm_catch. eapply ocalm_from. exact C.
    destruct copy. apply copy_const_calm. apply add_const_calm.
  Qed.
  Lemma base_weight_calm s w b : ocalm s (base_set_weight w b s).
  Proof. unfold base_set_weight. apply ocalm_bind. apply ocalm_lift, calm_refl. intros f t C. exact C. Qed.
  Lemma tuner_weight_calm s t w : ocalm s (tuner_set_weight t w s).
  Proof. unfold tuner_set_weight. apply ocalm_fold. apply calm_refl. intros b u C. eapply ocalm_from. exact C. apply base_weight_calm. Qed.
  Lemma set_weights_calm s ws : ocalm s (set_weights ws s).
  Proof.
    unfold set_weights. destruct (_ =? _); [|apply calm_refl]. apply ocalm_bind.
    apply ocalm_fold. apply calm_refl. intros p t C. eapply ocalm_from. exact C. apply tuner_weight_calm. intros _ t C. exact C.
  Qed.
  Lemma set_ones_calm s : ocalm s (set_all_ones s).
  Proof. unfold set_all_ones. apply ocalm_bind. apply ocalm_lift, calm_refl. intros ws t C. eapply ocalm_from. exact C. apply set_weights_calm. Qed.
  Lemma rf_gradient_tuners s e it : match rf_gradient e it s with Ret _ s' | Thr s' => r_tuners s' = r_tuners s | _ => True end.
  Proof.
    unfold rf_gradient.
    assert (K : forall B (o : out rst B) D (f : B -> rst -> out rst D) T, match o with Ret _ t | Thr t => r_tuners t = T | _ => True end ->
      (forall b t, r_tuners t = T -> match f b t with Ret _ t | Thr t => r_tuners t = T | _ => True end) ->
      match obind o f with Ret _ t | Thr t => r_tuners t = T | _ => True end) by (intros B [] D f T; simpl; auto; intros Q1 Q2; apply Q2; auto).
    assert (G : forall B (m : gst (N:=N) -> out _ B) t, match on_g m t with Ret _ u | Thr u => r_tuners u = r_tuners t | _ => True end).
    { intros B m t. unfold on_g. destruct (m (r_g t)); simpl; auto. }
    apply K. destruct (existsb _ _); auto. apply G. intros _ t Et. apply K. rewrite <- Et.
    exact (G _ (propagate (r_h t) e SUM) (set_g t (reset_belief (r_g t)))).
    intros _ u Eu. destruct (g_pool (r_g u)); auto. match goal with |- match lift ?r _ with _ => _ end => destruct r; simpl; auto end.
  Qed.
  Lemma gradient_calm s e it n : 1 <= n -> en (r_g s) -> ocalm s (weights_gradient e it n s).
  Proof.
    intros L E. unfold weights_gradient, scoped, on_g, set_pool_size. rewrite E. destruct (Nat.eqb_spec n 0); [lia|].
    assert (K : forall t, r_tuners t = r_tuners s -> ocalm s (match rf_gradient e it t with
      | Ret a s => Ret a (set_g s (set_pool (r_g s) (Some 1))) | Thr s => Thr (set_g s (set_pool (r_g s) (Some 1))) | Undef => Undef | NotNum => NotNum | NoStop => NoStop end)).
    { intros t Et. pose proof (rf_gradient_tuners t e it) as Q. destruct (rf_gradient e it t); simpl in *; auto; split; simpl; try congruence; reflexivity. }
    destruct (n =? 1); cbn [obind]; apply K; auto.
  Qed.

  (** the state agrees with the objects, the tuners are well formed, the pool exists *)
  Record full (P : Prop) s : Prop := { fl_coh : coh P s; fl_tin : tinv s; fl_en : en (r_g s) }.
  Definition ofull {B} P s (o : out rst B) : Prop := match o with Ret _ t | Thr t => cstep P s t /\ full P t | _ => True end.
  Lemma calm_full {B} P s (o : out rst B) : full P s -> ocoh P s o -> ocalm s o -> ofull P s o.
  Proof.
    intros [C T E]. destruct o; simpl; auto; intros CS [Q1 Q2]; split; auto; constructor; try apply CS; auto; eapply tinv_le; eauto; apply CS.
  Qed.
  Lemma ofull_from {B} P s t (o : out rst B) : cstep P s t -> ofull P t o -> ofull P s o.
  Proof. intros C. destruct o; simpl; auto; intros [C1 F]; split; auto; eapply cstep_trans; eauto. Qed.
  Lemma ofull_bind {B D} P s (o : out rst B) (f : B -> rst -> out rst D) : ofull P s o -> (forall b t, o = Ret b t -> cstep P s t -> full P t -> ofull P s (f b t)) -> ofull P s (obind o f).
  Proof. destruct o; simpl; auto. intros [C F] K. apply K; auto. Qed.
  Lemma ofull_fold {B} P (f : B -> rst -> out rst unit) l s : forall t, cstep P s t -> full P t ->
    (forall b t, In b l -> cstep P s t -> full P t -> ofull P s (f b t)) -> ofull P s (ofold f l t).
  Proof. induction l as [|b l IH]; simpl; intros t C F K; auto. apply ofull_bind; auto. Qed.
  Lemma ofull_catch P s o : ofull P s o -> ofull P s (try_catch o).
  Proof. destruct o; simpl; auto. Qed.
  Lemma full_refl P s : full P s -> cstep P s s.
  Proof. intros F. apply cstep_refl. apply F. Qed.

  Lemma add_tunable_full P s d share : full P s -> (forall f, d = Some f -> expo s f) ->
    (forall f, d = Some f -> share <> None -> on_hidden s f) -> ofull P s (add_tunable d share s).
  Proof.
    intros [C T E] Hd HH. pose proof (add_tunable_coh P s d share C Hd HH) as ST. unfold add_tunable in *.
    pose proof (on_g_add_coh P s d C (fun f E => proj1 (Hd f E))) as Q. pose proof (add_calm s d) as CA.
    destruct (on_g _ s) as [[] s1|s1| | |] eqn:EG; cbn [obind ocoh ocalm] in *; auto.
    2:{ split; auto. constructor; [apply Q| |apply CA; auto]. eapply tinv_le. apply Q. apply CA. auto. }
    destruct CA as [CA1 CA2]. specialize (CA2 E).
    destruct d as [f|]; [|exact I].
    pose proof Q as [C1 L1 U1]. assert (T1 : tinv s1) by (eapply tinv_le; eauto).
    destruct (make_tuner s1 f) as [t| | | |] eqn:ET; cbn [lift obind ocoh] in *; auto.
    2:{ split; auto. constructor; auto. }
    assert (Tt : tuner_ok s1 t). { apply (make_tuner_ok s1 f); auto. apply C1. pose proof (rl_top _ _ L1). destruct (Hd f eq_refl). lia. }
    assert (K : forall t' : rst, r_g t' = r_g s1 -> r_top t' = r_top s1 -> (forall k, f_group (r_h t' k) = f_group (r_h s1 k)) ->
      (forall u b, In u (r_tuners t') -> In b (bases u) -> (exists u', In u' (r_tuners s1) /\ In b (bases u')) \/ b = t) ->
      cstep P s t' -> cstep P s t' /\ full P t').
    { intros t' Eg Et Eh Eu CS. split; auto. constructor. apply CS.
      - intros u b Ju Jb. assert (TB : tuner_ok s1 b). { destruct (Eu u b Ju Jb) as [(u' & J1 & J2)| ->]; eauto. }
        destruct TB as [B1 B2]. split. lia. unfold f_vars in *. rewrite Eg. rewrite Eh. exact B2.
      - rewrite Eg. auto. }
    destruct share as [group|].
    2:{ apply K; auto. intros u b Ju Jb. cbn [r_tuners set_tuners set_tun] in Ju. apply in_app_or in Ju as [Ju|[<-|[]]]; [left; eauto|]. right. destruct Jb as [<-|[]]; auto. }
    destruct (find_tuner _ group) as [i| | | |] eqn:EF; cbn [lift obind ocoh] in *; auto; [|apply K; auto; intros u b Ju Jb; left; eauto].
    destruct (vget _ i) as [old| | | |] eqn:EO; cbn [lift obind ocoh] in *; auto; [|apply K; auto; intros u b Ju Jb; left; eauto].
    assert (EN : nth_error (r_tuners s1) i = Some old). { unfold vget in EO. cbn [r_tuners set_tun] in EO. destruct (nth_error (r_tuners s1) i); inversion EO; auto. }
    set (new := TComp (bases old ++ [t])) in *. set (s3 := set_tuners _ (lset _ i new)) in *.
    assert (EU : forall u b, In u (r_tuners s3) -> In b (bases u) -> (exists u', In u' (r_tuners s1) /\ In b (bases u')) \/ b = t).
    { intros u b Ju Jb. unfold s3 in Ju. cbn [r_tuners set_tuners set_tun] in Ju. destruct (lset_split (r_tuners s1) i new old EN) as (p & q & E1 & _ & E2).
      rewrite E2 in Ju. apply in_app_or in Ju as [Ju|[<-|Ju]].
      - left. exists u. split; auto. rewrite E1. apply in_or_app; auto.
      - cbn [bases new] in Jb. apply in_app_or in Jb as [Jb|[<-|[]]]; auto. left. exists old. split; auto. eapply nth_error_In; eauto.
      - left. exists u. split; auto. rewrite E1. apply in_or_app; right; right; auto. }
    destruct (tuner_weight (r_h s3) new) as [w| | | |] eqn:EW; cbn [lift obind ocoh] in *; auto; [|apply K; auto].
    assert (GR : forall l s3 s4, ofold (base_set_weight w) l s3 = Ret tt s4 \/ ofold (base_set_weight w) l s3 = Thr s4 ->
      r_g s4 = r_g s3 /\ r_top s4 = r_top s3 /\ (forall k, f_group (r_h s4 k) = f_group (r_h s3 k)) /\ r_tuners s4 = r_tuners s3).
    { clear. induction l as [|b l IH]; simpl; intros s3 s4 Q. destruct Q as [Q|Q]; inversion Q; subst; auto.
      unfold base_set_weight at 1 3 in Q. unfold exp_set_weight in Q. destruct (f_exp (r_h s3 (bt_fac b))) eqn:X; cbn [lift obind] in Q.
      - apply IH in Q as (Q1 & Q2 & Q3 & Q4). splits; auto. intros k. rewrite Q3. cbn [r_h set_h]. unfold fupd. destruct (Nat.eqb_spec k (bt_fac b)); subst; auto.
      - destruct Q as [Q|Q]; inversion Q; subst; auto. }
    unfold tuner_set_weight in *. destruct (ofold (base_set_weight w) (bases new) s3) as [[] s4|s4| | |] eqn:EO4; cbn [ocoh ofull] in *; auto;
      destruct (GR (bases new) s3 s4 ltac:(rewrite EO4; auto)) as (Q1 & Q2 & Q3 & Q4); apply K; auto; rewrite Q4; auto.
  Qed.
  Lemma copy_tunable_full P s f share : full P s -> expo s f -> (share <> None -> on_hidden s f) -> ofull P s (copy_tunable f share s).
  Proof.
    intros F X HH. unfold copy_tunable. apply ofull_bind. { destruct (exp_copy (r_h s f)); simpl; auto; split; auto; apply full_refl; auto. }
    intros c s' Q _ _. destruct (exp_copy (r_h s f)) as [c'| | | |] eqn:E; simpl in Q; try discriminate.
    injection Q as <- <-. assert (Hb : built c'). { eapply b_expcopy; eauto. apply F. }
    assert (ST : cstep P s (snd (alloc s c'))) by (apply alloc_coh; auto; apply F). apply exp_copy_group in E as [EG EX].
    cbn [alloc snd] in *. eapply ofull_from. exact ST. apply add_tunable_full.
    - constructor. apply ST. eapply tinv_le. apply ST. auto. apply F. apply (fl_en _ _ F).
    - intros k [= <-]. split; simpl. lia. rewrite fupd_eq. auto.
    - intros k [= <-] NS v J. cbn [r_h] in J. rewrite fupd_eq in J. unfold f_vars in J. rewrite EG in J. apply (cs_un _ _ _ ST). apply HH; auto.
  Qed.
  Lemma insert_tunable_full P s copy f share : full P s -> expo s f -> (share <> None -> on_hidden s f) -> ofull P s (insert_tunable copy f share s).
  Proof.
    intros C X HH. destruct copy. apply copy_tunable_full; auto. apply add_tunable_full; auto. intros k [= <-]. auto. intros k [= <-]. auto.
  Qed.
  Lemma absorb_tunable_full P s copy l : full P s -> (forall f, In f l -> expo s f) -> ofull P s (absorb_tunable copy l s).
  Proof.
    intros C Hl. unfold absorb_tunable. apply ofull_fold; auto. apply full_refl; auto. intros f s' J ST F. apply ofull_catch.
    eapply ofull_from. exact ST. apply insert_tunable_full; auto. eapply expo_le. apply ST. auto. congruence.
  Qed.
  Lemma absorb_cluster_full P s copy c : full P s -> (forall f, In f c -> expo s f) -> (forall f, In f c -> on_hidden s f) -> ofull P s (absorb_cluster copy c s).
  Proof.
    intros C Hc HH. destruct c as [|f c]; simpl; auto. apply ofull_bind. apply insert_tunable_full; auto. apply Hc. left; auto. congruence.
    intros _ s' _ ST F. apply ofull_fold; auto. intros k s2 J ST2 F2. eapply ofull_from. exact ST2. apply insert_tunable_full; auto.
    eapply expo_le. apply ST2. apply Hc. right; auto.
    intros _. eapply on_hidden_le. exact ST2. apply Hc. right; auto. apply HH. right; auto.
  Qed.
  Lemma absorb_clusters_full P s copy cs : full P s -> (forall c f, In c cs -> In f c -> expo s f) -> (forall c f, In c cs -> In f c -> on_hidden s f) ->
    ofull P s (absorb_clusters copy cs s).
  Proof.
    intros C Hl HH. unfold absorb_clusters. apply ofull_fold; auto. apply full_refl; auto. intros c s' J ST F. apply ofull_catch.
    eapply ofull_from. exact ST. apply absorb_cluster_full; auto. intros f Jf. eapply expo_le. apply ST. eauto.
    intros f Jf. eapply on_hidden_le. exact ST. apply (Hl c); auto. eauto.
  Qed.

  (** the calls are given at least one thread *)
  Definition threaded (op : rop) : Prop :=
    match op with
    | RGradient _ n => 1 <= n
    | RGraph op => forall n, query_threads op = Some n -> 1 <= n
    | _ => True
    end.
  Definition steady P s op : Prop := careful P s op /\ threaded op.

  Theorem rcall_full P e op s : full P s -> rok op s -> steady P s op -> env_ok e ->
    match rcall e op s with Ret _ t | Thr t => full P t | _ => True end.
  Proof.
    intros F Hop [G TH] E.
    assert (W : forall B (o : out rst B) (f : B -> answer), ofull P s o -> match rmapo f o with Ret _ t | Thr t => full P t | _ => True end).
    { intros B o f Q. destruct o; simpl in *; auto; apply Q. }
    assert (V : forall B (o : out rst B) (f : B -> answer), ocoh P s o -> ocalm s o -> match rmapo f o with Ret _ t | Thr t => full P t | _ => True end).
    { intros B o f Q Q'. apply W. apply calm_full; auto. }
    assert (C := fl_coh _ _ F).
    destruct op; cbn [rcall rok careful threaded] in *.
    - assert (CS : cstep P s (snd (alloc s f))) by (apply alloc_coh; auto).
      constructor. apply CS. eapply tinv_le. apply CS. auto. apply F. apply (fl_en _ _ F).
    - apply V. apply add_const_coh; auto. intros f ->. auto. apply add_const_calm.
    - apply V. apply copy_const_coh; auto. apply copy_const_calm.
    - apply V. apply absorb_const_coh; auto. apply absorb_const_calm.
    - apply W. apply add_tunable_full; auto. intros f ->. auto. intros f -> NS. destruct share; [auto|congruence].
    - apply W. apply copy_tunable_full; auto. intros NS. destruct share; [auto|congruence].
    - apply W. apply absorb_tunable_full; auto.
    - apply W. apply absorb_clusters_full; auto.
    - apply V. apply set_weights_coh; auto. apply set_weights_calm.
    - apply V. apply set_all_ones_coh; auto. apply set_ones_calm.
    - pose proof (rcall_coh P e (RGradient it threads) s C I I E) as Q. pose proof (rcall_step e (RGradient it threads) s (ch_r _ _ C) I) as ST.
      pose proof (gradient_calm s e it threads TH (fl_en _ _ F)) as CA. cbn [rcall] in *.
      destruct (weights_gradient e it threads s) as [l t|t| | |]; cbn [rmapo obind ocalm ostep] in *; auto; destruct CA as [CA1 CA2];
        (constructor; auto; [eapply tinv_le; [apply ST| |apply F]; auto|apply CA2, F]).
    - pose proof (rcall_coh P e (RGraph op) s C Hop G E) as Q. pose proof (rcall_step e (RGraph op) s (ch_r _ _ C) Hop) as ST. cbn [rcall] in *.
      pose proof (on_g_calm s s (call (r_h s) e op) (calm_refl s) (fun X => call_en (r_h s) e op (r_g s) X TH)) as CA.
      destruct (on_g (call (r_h s) e op) s) as [l t|t| | |]; cbn [ocalm ostep] in *; auto; destruct CA as [CA1 CA2];
        (constructor; auto; [eapply tinv_le; [apply ST| |apply F]; auto|apply CA2, F]).
  Qed.
  Lemma full_empty P h top : (forall f, built (h f)) -> full P (r_empty h top).
  Proof. intros Hb. constructor. apply coh_empty; auto. intros t b []. reflexivity. Qed.
  Theorem rreach_full P h top s : (forall f, built (h f)) -> rreach h top (steady P) s -> full P s.
  Proof.
    intros Hb R. induction R as [|s e op a s' R IH Hop G E Q|s e op s' R IH Hop G E Q].
    - apply full_empty; auto.
    - pose proof (rcall_full P e op s IH Hop G E) as X. rewrite Q in X. auto.
    - pose proof (rcall_full P e op s IH Hop G E) as X. rewrite Q in X. auto.
  Qed.
End Full.
