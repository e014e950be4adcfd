(** Absorption of factors: lemmas for P_Absorb.v *)
From Coq Require Import String List Arith Bool Lia Permutation.
From Verif Require Import Res Num Categoric Combs Func FuncProofs GroupProofs FactorProofs FactorApi Special SpecialProofs
  Graph GraphLemmas Clusters Belief Query GraphInv EvidInv BeliefInv GraphSpec Hist Train TrainHist Coherent Plan CopyProofs FieldSafe AbsorbSpec.
Import ListNotations.
Open Scope nat_scope.

Section Absorb.
  Context {N : num} (OK : num_ok N).
  Notation rst := (rst (N:=N)).
  Implicit Types s : rst.

  Lemma Forall2_in {A B} (P Q : A -> B -> Prop) l l' : (forall x y, In x l -> P x y -> Q x y) -> Forall2 P l l' -> Forall2 Q l l'.
  Proof. intros I F. revert I. induction F; intros I; constructor. apply I; simpl; auto. apply IHF. intros a b J. apply I; simpl; auto. Qed.

  (** {1 Dependence of the specification on the variables of the factors} *)
  Definition agree s (fv : nat -> list var) : Prop := forall j, j < r_top s -> fv j = f_vars (r_h s j).
  Lemma agree_le s s' fv : rle s s' -> agree s' fv -> agree s fv.
  Proof.
    intros L A j J. pose proof (rl_top _ _ L). rewrite A by lia. unfold f_vars. rewrite (rl_vars _ _ L); auto.
  Qed.
  Lemma sp_add_ext fv fv' A f : (forall g, In g (sp_facs A) -> fv g = fv' g) -> fv f = fv' f -> sp_add fv A f = sp_add fv' A f.
  Proof.
    intros E Ef. unfold sp_add. rewrite Ef. destruct (existsb _ _); auto. destruct (fv' f) as [|x [|y [|]]]; auto.
    assert (J : sp_joined fv A x y = sp_joined fv' A x y).
    { unfold sp_joined. induction (sp_facs A) as [|g l IH]; simpl; auto. rewrite E, IH; auto. simpl; auto. intros j K. apply E. simpl; auto. simpl; auto. }
    rewrite J. auto.
  Qed.
  Lemma add_agree s A k fv : coh False s -> abs (r_g s) A -> k < r_top s -> agree s fv -> sp_add fv A k = sp_add (fvars (r_h s)) A k.
  Proof.
    intros C AB L AG. apply sp_add_ext. intros g J. apply AG. apply (ri_top _ (ch_r _ _ C)). rewrite (ab_all _ _ AB). auto. apply AG; auto.
  Qed.
  Lemma coh_weak P s : coh P s -> coh False s.
  Proof. intros [A B C]. constructor; auto. tauto. Qed.

  (** {1 New objects} *)
  Definition same_values (f g : func N) : Prop :=
    f_group g = f_group f /\ forall c, valid_comb (fsizes f) c -> fval g c = fval f c.
  Lemma same_values_refl f : same_values f f.
  Proof. split; auto. Qed.
  Lemma clone_values f : solid f -> exists c, factor_clone_transformed f = Ok c /\ same_values f c.
  Proof.
    intros [[W _] _]. destruct (factor_clone_transformed_ok f W) as (c & E & _ & G & X & IM). exists c. split; auto. split; auto.
    intros l V. unfold fval at 1, transform. rewrite X. auto.
  Qed.
  Lemma exp_copy_values f : solid f -> f_exp f <> None -> exists c, exp_copy f = Ok c /\ same_values f c /\ f_exp c = f_exp f.
  Proof.
    intros [[W _] _] X. unfold exp_copy, exp_get_weight. destruct (f_exp f) as [w|] eqn:E; [|congruence]. cbn [rbind].
    destruct (exp_ctor_ok f w W) as (c & Ec & _ & G & Xc & IM). exists c. split; auto. split; [|congruence]. split; auto.
    intros l V. unfold fval, transform. rewrite Xc, E, IM; auto.
  Qed.

  (** {1 One insertion} *)
  Lemma add_const_one P s A k : coh P s -> abs (r_g s) A -> object s k ->
    exists s' r, sp_add (fvars (r_h s)) A k = r /\ add_const (Some k) s = (if fst r then Thr s' else Ret tt s') /\ cstep P s s' /\ abs (r_g s') (snd r) /\
      r_h s' = r_h s /\ r_top s' = r_top s /\ r_const s' = r_const s ++ (if fst r then [] else [k]) /\ r_tuners s' = r_tuners s.
  Proof.
    intros C AB O. pose proof (add_const_coh P s (Some k) C) as CO. unfold add_const in *. unfold on_g in *.
    destruct (add_does (r_h s) (coh_solid P s C) (r_g s) A k (ch_inv _ _ C) AB) as (g & E & _ & AB' & _). rewrite E in *.
    destruct (sp_add (fvars (r_h s)) A k) as [[] A']; cbn [fst snd obind ocoh] in *.
    - exists (set_g s g), (true, A'). cbn [fst snd]. splits; auto. apply CO. intros j [= <-]; auto. simpl. rewrite app_nil_r; auto.
    - eexists _, (false, A'). cbn [fst snd]. split; [reflexivity|]. split; [reflexivity|]. splits; auto. apply CO. intros j [= <-]; auto.
  Qed.
  Lemma insert_const_one P s A f (copy : bool) : coh P s -> abs (r_g s) A -> object s f ->
    let k := if copy then r_top s else f in
    exists s' (thrown : bool) A', (if copy then copy_const f s else add_const (Some f) s) = (if thrown then Thr s' else Ret tt s') /\ cstep P s s' /\
      abs (r_g s') A' /\ (forall fv, agree s' fv -> sp_add fv A k = (thrown, A')) /\
      r_top s' = (if copy then S (r_top s) else r_top s) /\ (forall j, j < r_top s -> r_h s' j = r_h s j) /\ same_values (r_h s f) (r_h s' k) /\
      r_const s' = r_const s ++ (if thrown then [] else [k]) /\ r_tuners s' = r_tuners s.
  Proof.
    intros C AB O k. subst k. destruct copy.
    - unfold copy_const. destruct (clone_values (r_h s f) (coh_solid P s C f)) as (c & E & SV). rewrite E. cbn [lift obind].
      assert (ST : cstep P s (snd (alloc s c))). { apply alloc_coh; auto. eapply b_clone; eauto. apply C. }
      cbn [alloc snd] in *. match type of ST with cstep _ _ ?u => set (s0 := u) in * end.
      destruct (add_const_one P s0 A (r_top s)) as (s' & [th A'] & ER & EO & CS & AB' & Eh & Et & Ec & Eu). apply ST. auto. unfold object, s0. simpl. lia.
      cbn [fst snd] in *. exists s', th, A'. splits; auto.
      + eapply cstep_trans; eauto.
      + intros fv AG. rewrite <- ER. apply add_agree. eapply coh_weak; apply ST. auto. unfold s0. simpl; lia. eapply agree_le. apply CS. auto.
      + intros j J. rewrite Eh. unfold s0. cbn [r_h]. apply fupd_ne. lia.
      + rewrite Eh. unfold s0. cbn [r_h]. rewrite fupd_eq. auto.
    - destruct (add_const_one P s A f C AB O) as (s' & [th A'] & ER & EO & CS & AB' & Eh & Et & Ec & Eu).
      cbn [fst snd] in *. exists s', th, A'. splits; auto.
      + intros fv AG. rewrite <- ER. apply add_agree; auto. eapply coh_weak; eauto. eapply agree_le. apply CS. auto.
      + intros j J. rewrite Eh. auto.
      + rewrite Eh. apply same_values_refl.
  Qed.

  (** {1 Lists of factors} *)
  Lemma taken_cons copy top f l : taken copy top (f :: l) = (if copy then top else f) :: taken copy (if copy then S top else top) l.
  Proof. destruct copy; auto. Qed.
  Lemma absorb_const_does P l copy : forall s A, coh P s -> abs (r_g s) A -> (forall f, In f l -> object s f) ->
    exists s' acc A', absorb_const l copy s = Ret tt s' /\ cstep P s s' /\ abs (r_g s') A' /\
      (forall fv, agree s' fv -> sp_accept fv A (taken copy (r_top s) l) = (acc, A')) /\
      (forall j, j < r_top s -> r_h s' j = r_h s j) /\ Forall2 (fun f k => k < r_top s' /\ same_values (r_h s f) (r_h s' k)) l (taken copy (r_top s) l) /\
      r_const s' = r_const s ++ acc /\ r_tuners s' = r_tuners s.
  Proof.
    induction l as [|f l IH]; intros s A C AB O.
    - exists s, [], A. splits; auto. apply cstep_refl; auto. destruct copy; auto. destruct copy; constructor. rewrite app_nil_r; auto.
    - destruct (insert_const_one P s A f copy C AB (O f (or_introl eq_refl))) as (s1 & th & A1 & E1 & CS & AB1 & SP & Et & Eh & SV & Ec & Eu).
      destruct (IH s1 A1) as (s' & acc & A' & E2 & CS2 & AB2 & SP2 & Eh2 & F2 & Ec2 & Eu2). apply CS. auto. { intros j J. eapply object_le. apply CS. apply O. simpl; auto. }
      assert (T : r_top s <= r_top s1) by (rewrite Et; destruct copy; lia).
      assert (K : (if copy then r_top s else f) < r_top s1). { rewrite Et. destruct copy. lia. apply (O f (or_introl eq_refl)). }
      exists s', (if th then acc else (if copy then r_top s else f) :: acc), A'. splits; auto.
      + unfold absorb_const in *. cbn [ofold]. rewrite E1. destruct th; cbn [try_catch obind]; exact E2.
      + eapply cstep_trans; eauto.
      + intros fv AG. rewrite taken_cons. cbn [sp_accept]. rewrite SP by (eapply agree_le; [apply CS2|auto]).
        rewrite Et in SP2. destruct copy; rewrite SP2 by auto; auto.
      + intros j J. rewrite Eh2 by lia. auto.
      + rewrite taken_cons. constructor.
        * split. pose proof (rl_top _ _ (cs_le _ _ _ CS2)). lia. rewrite Eh2 by auto. auto.
        * rewrite Et in F2. apply Forall2_in with (2 := F2). intros a b Ja [L [G V]]. rewrite Eh in G, V by (apply O; simpl; auto). split; [exact L|]. split; auto.
      + rewrite Ec2, Ec. destruct th; simpl. rewrite app_nil_r. auto. rewrite <- app_assoc. auto.
      + congruence.
  Qed.

  (** {1 Tunable factors} *)
  Lemma make_tuner_in P s f : coh P s -> In f (g_all (r_g s)) -> exists t, make_tuner s f = Ok t /\ bt_fac t = f.
  Proof.
    intros F J. pose proof (proj1 (ch_inv _ _ F)) as C. apply (make_tuner_succeeds P); auto.
    - intros v Jv. destruct (co_fac _ _ _ C f J) as [(x & a & E & V & _)|(x & y & a & b & c & E & Vx & Vy & _)]; unfold fvars in E; rewrite E in Jv; simpl in Jv.
      + destruct Jv as [<-|[]]. eapply nth_error_In; exact V.
      + destruct Jv as [<-|[<-|[]]]; eapply nth_error_In; eauto.
    - destruct (co_fac _ _ _ C f J) as [(x & a & E & V & _)|(x & y & a & b & c & E & Vx & Vy & _)]; eauto.
  Qed.
  Lemma tuners_exp' P s t b : coh P s -> In t (r_tuners s) -> In b (bases t) -> f_exp (r_h s (bt_fac b)) <> None.
  Proof.
    intros C Jt Jb. apply (ri_exp _ (ch_r _ _ C)). apply in_concat. exists (map bt_fac (bases t)). split.
    unfold tunable_clusters. apply in_map_iff. eauto. apply in_map; auto.
  Qed.

  Definition joins s (group : option (list var)) (k : nat) (cls : list (list nat)) : Prop :=
    match group with
    | None => cls = tunable_clusters s ++ [[k]]
    | Some G => exists old c rest, tunable_clusters s = old ++ c :: rest /\ (forall d, In d old -> tests s G d = false) /\ tests s G c = true /\
        cls = old ++ (c ++ [k]) :: rest
    end.
  Definition can_join s (group : option (list var)) : Prop :=
    match group with None => True | Some G => exists c, In c (tunable_clusters s) /\ tests s G c = true end.

  Lemma first_split {A} (p : A -> bool) l : (exists x, In x l /\ p x = true) -> exists a x b, l = a ++ x :: b /\ (forall y, In y a -> p y = false) /\ p x = true.
  Proof.
    induction l as [|y l IH]; intros (x & J & E). destruct J. destruct (p y) eqn:Ey.
    - exists [], y, l. splits; auto. intros z [].
    - destruct IH as (a & z & b & El & Ha & Hz). { exists x. split; auto. destruct J; congruence. }
      exists (y :: a), z, b. rewrite El. splits; auto. intros w [<-|Jw]; auto.
  Qed.

  Lemma add_tunable_one P s A k share : coh P s -> abs (r_g s) A -> expo s k -> (share <> None -> on_hidden s k) -> can_join s share ->
    exists s' r, sp_add (fvars (r_h s)) A k = r /\ add_tunable (Some k) share s = (if fst r then Thr s' else Ret tt s') /\ cstep P s s' /\ abs (r_g s') (snd r) /\
      (forall j, j <> k -> r_h s' j = r_h s j) /\ (share = None -> r_h s' = r_h s) /\ f_group (r_h s' k) = f_group (r_h s k) /\
      r_top s' = r_top s /\ r_const s' = r_const s /\
      (if fst r then tunable_clusters s' = tunable_clusters s else joins s share k (tunable_clusters s')).
  Proof.
    intros C AB X HH CJ. pose proof (add_tunable_coh P s (Some k) share C) as CO. pose proof (on_g_add_coh P s (Some k) C) as C1.
    pose proof (on_g_add s (Some k) (ch_r _ _ C)) as Q.
    assert (UN : add_tunable (Some k) share s = add_tunable (Some k) share s) by auto. unfold add_tunable at 2 in UN. unfold on_g in *.
    destruct (add_does (r_h s) (coh_solid P s C) (r_g s) A k (ch_inv _ _ C) AB) as (g & E & _ & AB' & _). rewrite E in *.
    destruct (sp_add (fvars (r_h s)) A k) as [th A']. cbn [fst snd] in *.
    assert (CO' := CO (fun f Ef => match Ef in _ = o return match o with Some f => expo s f | None => True end with eq_refl => X end)).
    destruct th; cbn [obind ocoh] in *.
    - rewrite UN in *. exists (set_g s g), (true, A'). cbn [fst snd]. splits; auto. apply CO'. intros f [= <-]. auto.
    - clear CO. destruct C1 as [C1 _ _]. { intros f [= <-]. apply X. } destruct Q as (_ & f0 & [= <-] & NI & EA & _). { intros f [= <-]. apply X. }
      set (s1 := set_g s g) in *. destruct (make_tuner_in P s1 k C1) as (t & Et & Ft). { rewrite EA. apply in_or_app; simpl; auto. }
      rewrite Et in UN. cbn [lift obind] in UN. destruct share as [group|].
      + specialize (CO' ltac:(intros f [= <-]; auto)).
        cbn [can_join] in CJ. apply first_split in CJ as (old & c & rest & EC & H0 & H1).
        pose proof EC as EC'. unfold tunable_clusters in EC. apply map_eq_app in EC as (ot & lx & EO & EM & EL). destruct lx as [|x rt]; try discriminate EL.
        cbn [map] in EL. injection EL as EX ER.
        assert (FT : find_tuner (set_tun s1 (r_tun s1 ++ [k])) group = Ok (length ot)).
        { unfold find_tuner. cbn [r_h r_tuners set_tun set_g s1]. rewrite EO. rewrite find_pos_app_none.
          - cbn [find_pos]. rewrite tunes_tests, EX, H1. simpl. f_equal. lia.
          - apply find_pos_none. intros y Jy. rewrite tunes_tests. apply H0. rewrite <- EM. apply in_map_iff. eauto. }
        assert (GT : vget (ot ++ x :: rt) (length ot) = Ok x). { unfold vget. rewrite nth_error_app2 by lia. rewrite Nat.sub_diag. auto. }
        assert (BX : exists b0 bs, bases x = b0 :: bs).
        { destruct (bases x) as [|b0 bs]; eauto. subst c. simpl in H1. discriminate H1. }
        destruct BX as (b0 & bs & BX).
        assert (Jx : In x (r_tuners s)). { rewrite EO. apply in_or_app; simpl; auto. }
        assert (W : exists w, f_exp (r_h s (bt_fac b0)) = Some w).
        { destruct (f_exp (r_h s (bt_fac b0))) as [w|] eqn:Ew; eauto. exfalso. apply (tuners_exp' P s x b0 C Jx); auto. rewrite BX; simpl; auto. }
        destruct W as (w & Ew).
        assert (TWE : tuner_weight (r_h s) (TComp (bases x ++ [t])) = Ok w).
        { rewrite BX. cbn [app tuner_weight]. unfold exp_get_weight. rewrite Ew. auto. }
        rewrite FT in UN. cbn [lift obind] in UN. cbn [r_tuners set_tun set_g s1] in UN. rewrite EO, GT in UN. cbn [lift obind] in UN.
        cbv zeta in UN. cbn [r_tuners set_tun set_g s1] in UN. rewrite EO, lset_mid in UN. cbn [r_h set_tuners set_tun set_g s1] in UN. rewrite TWE in UN. cbn [lift obind] in UN.
        rewrite UN in *.
        match goal with |- context [tuner_set_weight ?n w ?s3] => set (s3' := s3) in *; set (new := n) in * end.
        destruct (tuner_set_weight_ok w new s3') as (h' & E' & W1 & W2).
        { intros b' Jb. cbn [new bases] in Jb. change (r_h s3') with (r_h s). apply in_app_or in Jb as [Jb|[<-|[]]].
          eapply tuners_exp'; eauto. rewrite Ft. apply X. }
        rewrite E' in *. cbn [ocoh] in CO'.
        assert (OTH : forall j, j <> k -> h' j = r_h s j).
        { intros j NK. destruct (in_dec Nat.eq_dec j (map bt_fac (bases new))) as [J|J]; [|apply W2; auto].
          rewrite W1 by auto. cbn [new bases] in J. rewrite map_app in J. apply in_app_or in J as [J|[J|[]]]; [|congruence].
          assert (EQ : f_exp (r_h s j) = Some w).
          { rewrite <- Ew. apply (ri_eq _ (ch_r _ _ C) (map bt_fac (bases x))); auto. apply in_map_iff; eauto. rewrite BX. simpl; auto. }
          change (r_h s3') with (r_h s). rewrite <- EQ. destruct (r_h s j); auto. }
        exists (set_h s3' h'), (false, A'). cbn [fst snd]. splits; auto.
        * intros Q. discriminate Q.
        * cbn [r_h set_h]. rewrite W1. auto. cbn [new bases]. rewrite map_app. apply in_or_app. simpl. auto.
        * exists old, c, rest. splits; auto. unfold tunable_clusters. cbn [s3' r_tuners set_h set_tuners]. rewrite map_app, EM. cbn [map new bases]. rewrite map_app, EX, ER. cbn [map]. rewrite Ft. auto.
      + rewrite UN in *. eexists _, (false, A'). cbn [fst snd]. split; [reflexivity|]. split; [reflexivity|]. splits; auto. apply CO'. intros f Q NQ. congruence.
        cbn [joins]. unfold tunable_clusters. cbn [r_tuners set_tuners set_tun set_g s1]. rewrite map_app. simpl. rewrite Ft. auto.
  Qed.

  Lemma tests_ext s s' G c : (forall j, In j c -> f_group (r_h s' j) = f_group (r_h s j)) -> tests s' G c = tests s G c.
  Proof. intros E. unfold tests. induction c as [|j c IH]; auto. cbn [existsb]. rewrite E, IH; simpl; auto. intros i J. apply E. simpl; auto. Qed.
  Lemma cluster_top P s c j : coh P s -> In c (tunable_clusters s) -> In j c -> j < r_top s.
  Proof.
    intros C Jc Jj. apply (ri_top _ (ch_r _ _ C)). apply (ri_in _ (ch_r _ _ C)). apply in_or_app. right. apply (ri_tun _ (ch_r _ _ C)). apply in_concat. eauto.
  Qed.
  Lemma tests_le P s s' G c : coh P s -> rle s s' -> In c (tunable_clusters s) -> tests s' G c = tests s G c.
  Proof. intros C L J. apply tests_ext. intros j Jj. apply (rl_vars _ _ L). eapply cluster_top; eauto. Qed.
  Lemma joins_back P s s' share k cls : coh P s -> rle s s' -> tunable_clusters s' = tunable_clusters s -> joins s' share k cls -> joins s share k cls.
  Proof.
    intros C L E. destruct share as [G|]; simpl; rewrite E; auto. intros (old & c & rest & E1 & H0 & H1 & E2).
    exists old, c, rest. splits; auto.
    - intros d J. rewrite <- (tests_le P s s'); auto. rewrite E1. apply in_or_app; auto.
    - rewrite <- (tests_le P s s'); auto. rewrite E1. apply in_or_app; simpl; auto.
  Qed.
  Lemma can_join_le P s s' share : coh P s -> rle s s' -> incl (tunable_clusters s) (tunable_clusters s') -> can_join s share -> can_join s' share.
  Proof.
    intros C L I. destruct share as [G|]; simpl; auto. intros (c & J & T). exists c. split; auto. rewrite (tests_le P s s'); auto.
  Qed.

  Lemma insert_tunable_one P s A f (copy : bool) share : coh P s -> abs (r_g s) A -> expo s f -> (share <> None -> on_hidden s f) -> can_join s share ->
    let k := if copy then r_top s else f in
    exists s' (thrown : bool) A', insert_tunable copy f share s = (if thrown then Thr s' else Ret tt s') /\ cstep P s s' /\
      abs (r_g s') A' /\ (forall fv, agree s' fv -> sp_add fv A k = (thrown, A')) /\
      r_top s' = (if copy then S (r_top s) else r_top s) /\ (forall j, j < r_top s -> j <> k -> r_h s' j = r_h s j) /\ f_group (r_h s' k) = f_group (r_h s f) /\
      (share = None -> (forall j, j < r_top s -> r_h s' j = r_h s j) /\ same_values (r_h s f) (r_h s' k) /\ f_exp (r_h s' k) = f_exp (r_h s f)) /\
      r_const s' = r_const s /\ (if thrown then tunable_clusters s' = tunable_clusters s else joins s share k (tunable_clusters s')).
  Proof.
    intros C AB X HH CJ k. subst k. destruct copy; cbn [insert_tunable].
    - unfold copy_tunable. destruct (exp_copy_values (r_h s f) (coh_solid P s C f) (proj2 X)) as (c & E & SV & EX). rewrite E. cbn [lift obind].
      assert (ST : cstep P s (snd (alloc s c))). { apply alloc_coh; auto. eapply b_expcopy; eauto. apply C. }
      cbn [alloc snd] in *. match type of ST with cstep _ _ ?u => set (s0 := u) in * end.
      assert (H0 : r_h s0 (r_top s) = c) by (unfold s0; cbn [r_h]; apply fupd_eq).
      assert (H1 : forall j, j < r_top s -> r_h s0 j = r_h s j) by (intros j J; unfold s0; cbn [r_h]; apply fupd_ne; lia).
      destruct (add_tunable_one P s0 A (r_top s) share) as (s' & [th A'] & ER & EO & CS & AB' & Eh & En & Eg & Et & Ec & Eu).
      { apply ST. } { auto. } { split. unfold s0; simpl; lia. rewrite H0, EX. apply X. }
      { intros NS v J. rewrite H0 in J. unfold f_vars in J. rewrite (proj1 SV) in J. apply (cs_un _ _ _ ST). apply HH; auto. }
      { eapply can_join_le; eauto. apply ST. apply incl_refl. }
      cbn [fst snd] in *. exists s', th, A'. splits; auto.
      + eapply cstep_trans; eauto.
      + intros fv AG. rewrite <- ER. apply add_agree. eapply coh_weak; apply ST. auto. unfold s0. simpl; lia. eapply agree_le. apply CS. auto.
      + intros j J NJ. rewrite Eh by auto. auto.
      + rewrite Eg, H0. apply SV.
      + intros NS. rewrite (En NS), H0. splits; auto.
      + destruct th; auto. eapply joins_back; [exact C|apply ST| |exact Eu]. auto.
    - destruct (add_tunable_one P s A f share C AB X HH CJ) as (s' & [th A'] & ER & EO & CS & AB' & Eh & En & Eg & Et & Ec & Eu).
      cbn [fst snd] in *. exists s', th, A'. splits; auto.
      + intros fv AG. rewrite <- ER. apply add_agree; auto. eapply coh_weak; eauto. apply X. eapply agree_le. apply CS. auto.
      + intros NS. rewrite (En NS). splits; auto. apply same_values_refl.
  Qed.

  Lemma absorb_tunable_does P l copy : forall s A, coh P s -> abs (r_g s) A -> (forall f, In f l -> expo s f) ->
    exists s' acc A', absorb_tunable copy l s = Ret tt s' /\ cstep P s s' /\ abs (r_g s') A' /\
      (forall fv, agree s' fv -> sp_accept fv A (taken copy (r_top s) l) = (acc, A')) /\
      (forall j, j < r_top s -> r_h s' j = r_h s j) /\
      Forall2 (fun f k => k < r_top s' /\ same_values (r_h s f) (r_h s' k) /\ f_exp (r_h s' k) = f_exp (r_h s f)) l (taken copy (r_top s) l) /\
      r_const s' = r_const s /\ tunable_clusters s' = tunable_clusters s ++ map (fun k => [k]) acc.
  Proof.
    induction l as [|f l IH]; intros s A C AB O.
    - exists s, [], A. splits; auto. apply cstep_refl; auto. destruct copy; auto. destruct copy; constructor. simpl. rewrite app_nil_r; auto.
    - destruct (insert_tunable_one P s A f copy None C AB (O f (or_introl eq_refl))) as (s1 & th & A1 & E1 & CS & AB1 & SP & Et & _ & _ & SN & Ec & Eu). congruence. exact I.
      destruct (SN eq_refl) as (Eh & SV & EX). clear SN.
      destruct (IH s1 A1) as (s' & acc & A' & E2 & CS2 & AB2 & SP2 & Eh2 & F2 & Ec2 & Eu2). apply CS. auto. { intros j J. eapply expo_le. apply CS. apply O. simpl; auto. }
      assert (T : r_top s <= r_top s1) by (rewrite Et; destruct copy; lia).
      assert (K : (if copy then r_top s else f) < r_top s1). { rewrite Et. destruct copy. lia. apply (O f (or_introl eq_refl)). }
      exists s', (if th then acc else (if copy then r_top s else f) :: acc), A'. splits; auto.
      + unfold absorb_tunable in *. cbn [ofold]. rewrite E1. destruct th; cbn [try_catch obind]; exact E2.
      + eapply cstep_trans; eauto.
      + intros fv AG. rewrite taken_cons. cbn [sp_accept]. rewrite SP by (eapply agree_le; [apply CS2|auto]).
        rewrite Et in SP2. destruct copy; rewrite SP2 by auto; auto.
      + intros j J. rewrite Eh2 by lia. auto.
      + rewrite taken_cons. constructor.
        * rewrite Eh2 by auto. splits; auto. pose proof (rl_top _ _ (cs_le _ _ _ CS2)). lia.
        * rewrite Et in F2. apply Forall2_in with (2 := F2). intros a b Ja (L & [G V] & X). rewrite Eh in G, V, X by (apply O; simpl; auto). splits; auto. split; auto.
      + congruence.
      + rewrite Eu2. destruct th; simpl. congruence. rewrite Eu, <- app_assoc. auto.
  Qed.

  (** {1 Clusters} *)
  Lemma same_instance_eq x y : same_instance x y = true <-> x = y.
  Proof.
    unfold same_instance, same_key. destruct x as [n1 z1 i1], y as [n2 z2 i2]; cbn [vname vsize vid].
    rewrite !andb_true_iff, String.eqb_eq, !Nat.eqb_eq. split; [intros [[-> ->] ->]; auto|intros [= -> -> ->]; auto].
  Qed.
  Lemma same_vars_incl l m : same_vars l m = true <-> incl l m /\ incl m l.
  Proof.
    assert (I : forall l m, forallb (fun v => existsb (same_instance v) m) l = true <-> incl l m).
    { intros a b. rewrite forallb_forall. split; intros Q x J.
      - specialize (Q x J). apply existsb_exists in Q as (y & Jy & E). apply same_instance_eq in E. subst; auto.
      - apply existsb_exists. exists x. split; auto. apply same_instance_eq; auto. }
    unfold same_vars. rewrite andb_true_iff, !I. tauto.
  Qed.
  Lemma vset_same_vars a b : wf_group a -> wf_group b -> vset_eqb (g_set a) (g_set b) = same_vars (g_soup a) (g_soup b).
  Proof.
    intros [A1 A2] [B1 B2].
    assert (NA : NoDup (map vkey (g_set a))). { eapply Permutation_NoDup; [|exact A1]. symmetry. apply Permutation_map. auto. }
    assert (NB : NoDup (map vkey (g_set b))). { eapply Permutation_NoDup; [|exact B1]. symmetry. apply Permutation_map. auto. }
    apply eq_true_iff_eq. rewrite vset_eqb_perm by auto. rewrite same_vars_incl. split.
    - intros Q. assert (Q' : Permutation (g_soup a) (g_soup b)) by (rewrite <- A2, Q; auto).
      split; intros x J. eapply Permutation_in; eauto. eapply Permutation_in; [symmetry; eauto|auto].
    - intros [I1 I2]. rewrite A2, B2. apply NoDup_Permutation. eapply NoDup_map_inv; eauto. eapply NoDup_map_inv; eauto.
      intros x. split; auto.
  Qed.

  Lemma tests_same P s fv G c : coh P s -> agree s fv -> wf_group G -> In c (tunable_clusters s) ->
    tests s (g_set G) c = existsb (fun g => same_vars (fv g) (g_soup G)) c.
  Proof.
    intros C AG WG J. assert (L : forall j, In j c -> j < r_top s) by (intros j Jj; eapply cluster_top; eauto). clear J.
    unfold tests. induction c as [|j c IH]; auto. cbn [existsb]. rewrite IH by (intros i Ji; apply L; simpl; auto). f_equal.
    rewrite AG by (apply L; simpl; auto). apply vset_same_vars; auto. apply (coh_solid P s C j).
  Qed.
  Lemma joins_sp_join P s fv G k cls : coh P s -> agree s fv -> wf_group G -> joins s (Some (g_set G)) k cls ->
    cls = sp_join fv (g_soup G) k (tunable_clusters s).
  Proof.
    intros C AG WG (old & c & rest & E & H0 & H1 & ->). rewrite (tests_same P s fv) in H1; auto; [|rewrite E; apply in_or_app; simpl; auto].
    assert (H0' : forall d, In d old -> existsb (fun g => same_vars (fv g) (g_soup G)) d = false).
    { intros d J. rewrite <- (tests_same P s fv); auto. rewrite E. apply in_or_app; auto. }
    rewrite E. clear - H0' H1. induction old as [|d old IH]; cbn [app sp_join]. rewrite H1; auto.
    rewrite H0' by (simpl; auto). f_equal. apply IH. intros; apply H0'; simpl; auto.
  Qed.
  Lemma joins_can_join P s s' G k : coh P s -> rle s s' -> joins s (Some G) k (tunable_clusters s') -> can_join s' (Some G).
  Proof.
    intros C L (old & c & rest & E & H0 & H1 & E'). exists (c ++ [k]). split. rewrite E'. apply in_or_app; simpl; auto.
    unfold tests in *. rewrite existsb_app. apply orb_true_iff. left. rewrite <- H1. apply (tests_le P s s'); auto. rewrite E. apply in_or_app; simpl; auto.
  Qed.

  Lemma sp_object_if copy top f : sp_object copy top f = (if copy then top else f, if copy then S top else top).
  Proof. destruct copy; auto. Qed.
  Lemma shared_does P copy G : wf_group G -> forall r s A, coh P s -> abs (r_g s) A -> (forall f, In f r -> expo s f) -> (forall f, In f r -> on_hidden s f) ->
    can_join s (Some (g_set G)) ->
    exists s' (th : bool) A', ofold (fun g s => insert_tunable copy g (Some (g_set G)) s) r s = (if th then Thr s' else Ret tt s') /\ cstep P s s' /\ abs (r_g s') A' /\
      (forall fv, agree s' fv -> sp_shared fv copy (g_soup G) r (A, tunable_clusters s, r_top s) = (A', tunable_clusters s', r_top s')) /\
      (forall j, j < r_top s -> copy = true \/ ~ In j r -> r_h s' j = r_h s j) /\ r_const s' = r_const s.
  Proof.
    intros WG. induction r as [|f r IH]; intros s A C AB X HH CJ.
    - exists s, false, A. splits; auto. apply cstep_refl; auto.
    - destruct (insert_tunable_one P s A f copy (Some (g_set G)) C AB) as (s1 & th & A1 & E1 & CS & AB1 & SP & Et & Eh & _ & _ & Ec & Eu);
        [apply X; simpl; auto|intros _; apply HH; simpl; auto|auto|].
      assert (Ek : forall j, j < r_top s -> copy = true \/ ~ In j (f :: r) -> r_h s1 j = r_h s j).
      { intros j J Q. apply Eh; auto. destruct copy. lia. destruct Q as [Q|Q]; [discriminate Q|]. simpl in Q. intros ->. apply Q. auto. }
      destruct th.
      + exists s1, true, A1. splits; auto. { cbn [ofold]. rewrite E1. auto. }
        intros fv AG. cbn [sp_shared]. rewrite sp_object_if, SP by auto. rewrite Eu, Et. auto.
      + destruct (IH s1 A1) as (s' & th & A' & E2 & CS2 & AB2 & SP2 & Eh2 & Ec2).
        { apply CS. } { auto. } { intros j J. eapply expo_le. apply CS. apply X; simpl; auto. }
        { intros j J. eapply on_hidden_le. exact CS. apply X; simpl; auto. apply HH; simpl; auto. }
        { eapply joins_can_join; eauto. apply CS. }
        exists s', th, A'. splits; auto.
        * cbn [ofold]. rewrite E1. cbn [obind]. exact E2.
        * eapply cstep_trans; eauto.
        * intros fv AG. assert (AG1 : agree s1 fv) by (eapply agree_le; [apply CS2|auto]).
          cbn [sp_shared]. rewrite sp_object_if, SP by auto. rewrite <- (joins_sp_join P s fv G _ (tunable_clusters s1)); auto.
          rewrite <- Et. apply SP2; auto. eapply agree_le. apply CS. auto.
        * intros j J Q. rewrite Eh2, Ek; auto. rewrite Et. destruct copy; lia. destruct Q as [Q|Q]; auto. right. intros K. apply Q. simpl; auto.
        * congruence.
  Qed.

  Lemma cluster_does P copy c s A : c <> [] -> coh P s -> abs (r_g s) A -> (forall f, In f c -> expo s f) -> (forall f, In f c -> on_hidden s f) ->
    exists s' (th : bool) A', absorb_cluster copy c s = (if th then Thr s' else Ret tt s') /\ cstep P s s' /\ abs (r_g s') A' /\
      (forall fv, agree s' fv -> sp_cluster fv copy (A, tunable_clusters s, r_top s) c = (A', tunable_clusters s', r_top s')) /\
      (forall j, j < r_top s -> copy = true \/ ~ In j c -> r_h s' j = r_h s j) /\ r_const s' = r_const s.
  Proof.
    destruct c as [|f r]; intros NE C AB X HH. congruence. cbn [absorb_cluster]. clear NE.
    assert (WG : wf_group (f_group (r_h s f))) by apply (coh_solid P s C f).
    destruct (insert_tunable_one P s A f copy None C AB) as (s1 & th & A1 & E1 & CS & AB1 & SP & Et & _ & Eg & SN & Ec & Eu);
      [apply X; simpl; auto|congruence|exact I|]. destruct (SN eq_refl) as (Eh & _ & _). clear SN.
    rewrite E1. destruct th; cbn [obind].
    - exists s1, true, A1. splits; auto. intros fv AG. cbn [sp_cluster]. rewrite sp_object_if, SP by auto. rewrite Eu, Et. auto.
    - destruct (shared_does P copy (f_group (r_h s f)) WG r s1 A1) as (s' & th & A' & E2 & CS2 & AB2 & SP2 & Eh2 & Ec2).
      { apply CS. } { auto. } { intros j J. eapply expo_le. apply CS. apply X; simpl; auto. }
      { intros j J. eapply on_hidden_le. exact CS. apply X; simpl; auto. apply HH; simpl; auto. }
      { cbn [can_join joins] in *. eexists. split. rewrite Eu. apply in_or_app. right. left. reflexivity.
        unfold tests. cbn [existsb]. rewrite Eg. rewrite vset_eqb_refl; auto. }
      exists s', th, A'. splits; auto.
      * eapply cstep_trans; eauto.
      * intros fv AG. assert (AG1 : agree s1 fv) by (eapply agree_le; [apply CS2|auto]).
        cbn [sp_cluster]. rewrite sp_object_if, SP by auto. cbn [joins] in Eu. rewrite <- Eu, <- Et.
        rewrite (agree_le s s1 fv (cs_le _ _ _ CS) AG1 f) by (apply X; simpl; auto). apply SP2; auto.
      * intros j J Q. rewrite Eh2; auto. rewrite Et. destruct copy; lia. destruct Q as [Q|Q]; auto. right. intros K. apply Q. simpl; auto.
      * congruence.
  Qed.

  Lemma absorb_clusters_does P copy cs : forall s A, (forall c, In c cs -> c <> []) -> coh P s -> abs (r_g s) A ->
    (forall c f, In c cs -> In f c -> expo s f) -> (forall c f, In c cs -> In f c -> on_hidden s f) ->
    exists s' A', absorb_clusters copy cs s = Ret tt s' /\ cstep P s s' /\ abs (r_g s') A' /\
      (forall fv, agree s' fv -> sp_clusters fv copy cs (A, tunable_clusters s, r_top s) = (A', tunable_clusters s', r_top s')) /\
      (forall j, j < r_top s -> copy = true \/ ~ In j (concat cs) -> r_h s' j = r_h s j) /\ r_const s' = r_const s.
  Proof.
    induction cs as [|c cs IH]; intros s A NE C AB X HH.
    - exists s, A. splits; auto. apply cstep_refl; auto.
    - destruct (cluster_does P copy c s A) as (s1 & th & A1 & E1 & CS & AB1 & SP & Eh & Ec); [apply NE; simpl; auto|auto|auto|intros f J; apply (X c); simpl; auto|intros f J; apply (HH c); simpl; auto|].
      destruct (IH s1 A1) as (s' & A' & E2 & CS2 & AB2 & SP2 & Eh2 & Ec2).
      { intros d J. apply NE; simpl; auto. } { apply CS. } { auto. } { intros d f J Jf. eapply expo_le. apply CS. apply (X d); simpl; auto. }
      { intros d f J Jf. eapply on_hidden_le. exact CS. apply (X d); simpl; auto. apply (HH d); simpl; auto. }
      exists s', A'. splits; auto.
      + unfold absorb_clusters in *. cbn [ofold]. rewrite E1. destruct th; cbn [try_catch obind]; exact E2.
      + eapply cstep_trans; eauto.
      + intros fv AG. unfold sp_clusters in *. cbn [fold_left]. rewrite SP by (eapply agree_le; [apply CS2|auto]). apply SP2; auto.
      + intros j J Q. cbn [concat] in Q. rewrite Eh2, Eh; auto; try (destruct Q as [Q|Q]; auto; right; intros K; apply Q; apply in_or_app; auto).
        pose proof (rl_top _ _ (cs_le _ _ _ CS)). lia.
      + congruence.
  Qed.
End Absorb.
