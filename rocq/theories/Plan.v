(** The construction of a random field by the insertion of factors that are known
    in advance (a blueprint) in an empty one *)
From Coq Require Import String List Arith Bool Lia Permutation.
From Verif Require Import Res Num Categoric Combs Func FuncProofs GroupProofs FactorProofs FactorApi Special SpecialProofs
  Graph GraphLemmas Clusters Belief Query Gibbs GraphInv EvidInv BeliefInv GraphSpec Hist BeliefSpec BeliefHist Train TrainHist Coherent CRF CRFHist TrainInv FieldHist.
Import ListNotations.
Open Scope nat_scope.

Lemma F2_in_r {A B} (R : A -> B -> Prop) l l' : Forall2 R l l' -> forall b, In b l' -> exists a, In a l /\ R a b.
Proof. induction 1 as [|a b l l' Q F IH]; simpl; intros x; [tauto|]. intros [<-|J]; eauto. destruct (IH x J) as (y & ? & ?); eauto. Qed.
Lemma F2_in_l {A B} (R : A -> B -> Prop) l l' : Forall2 R l l' -> forall a, In a l -> exists b, In b l' /\ R a b.
Proof. induction 1 as [|a b l l' Q F IH]; simpl; intros x; [tauto|]. intros [<-|J]; eauto. destruct (IH x J) as (y & ? & ?); eauto. Qed.
Lemma F2_mono {A B} (R R' : A -> B -> Prop) l l' : (forall a b, In a l -> In b l' -> R a b -> R' a b) -> Forall2 R l l' -> Forall2 R' l l'.
Proof. intros M F. induction F; constructor. apply M; simpl; auto. apply IHF. intros; apply M; simpl; auto. Qed.

Lemma NoDup_split_app {T} (l1 l2 : list T) : NoDup (l1 ++ l2) -> forall x, In x l1 -> In x l2 -> False.
Proof. induction l1 as [|a l1 IH]; simpl; intros ND x J J'; auto. inversion ND; subst. destruct J as [<-|J]; eauto. apply H1. apply in_or_app; auto. Qed.
Lemma existsb_all_false {A} (p : A -> bool) l : (forall x, In x l -> p x = false) -> existsb p l = false.
Proof. induction l; simpl; auto. intros Q. rewrite Q, IHl; auto. Qed.

(** {1 Insertions in the specification} *)
Section SpecAdd.
  Lemma sp_known_in B v : sp_known B v = true <-> In (vkey v) (map vkey (sp_vars B)).
  Proof. unfold sp_known. rewrite existsb_exists, in_map_iff. split; intros (w & Q); exists w; rewrite same_key_spec in *; intuition congruence. Qed.
  Lemma sp_insert_in B v : sp_conflict B v = false -> forall w, In w (sp_vars (sp_insert B v)) <-> In w (sp_vars B) \/ w = v.
  Proof.
    intros NC w. unfold sp_insert. destruct (sp_known B v) eqn:K.
    - split; auto. intros [J| ->]; auto. unfold sp_known in K. apply existsb_exists in K as (u & Ju & E).
      destruct (same_instance v u) eqn:I. apply same_instance_spec in I. subst. auto.
      exfalso. unfold sp_conflict in NC. assert (X : existsb (fun w => same_key v w && negb (same_instance v w)) (sp_vars B) = true).
      { apply existsb_exists. exists u. rewrite E, I. auto. } congruence.
    - simpl. rewrite in_app_iff. simpl. intuition congruence.
  Qed.
  (** a pool of variables with different keys has no conflicts *)
  Lemma no_conflict (vs : list var) B v : NoDup (map vkey vs) -> (forall w, In w (sp_vars B) -> In w vs) -> In v vs -> sp_conflict B v = false.
  Proof.
    intros ND Sub J. unfold sp_conflict. apply existsb_all_false. intros w Jw. destruct (same_key v w) eqn:K; auto. simpl.
    apply same_key_spec in K. rewrite negb_false_iff. apply same_instance_spec.
    apply Sub in Jw. apply In_nth_error in J as (i & Hi). apply In_nth_error in Jw as (j & Hj).
    assert (i = j). { eapply (NoDup_nth_error (map vkey vs)); auto. rewrite map_length. apply nth_error_Some; congruence.
      rewrite !nth_error_map, Hi, Hj. simpl. congruence. } congruence.
  Qed.
End SpecAdd.
Section Plan.
  Context {N : num} (OK : num_ok N).
  Notation gst := (gst (N:=N)).
  Notation rst := (rst (N:=N)).
  Implicit Types s : rst.
  (** the objects that exist at the beginning, and their number *)
  Variable h0 : nat -> func N.
  Variable t0 : nat.
  Hypothesis h0_built : forall f, built (h0 f).
  (** the factors to insert, with their variables *)
  Variable B : nat -> func N.
  Variable V0 : list var.
  Variable L0 : list nat.
  Hypothesis B_built : forall f, In f L0 -> built (B f).
  Hypothesis src_nd : NoDup (map vkey V0).
  Hypothesis src_shape : forall f, In f L0 ->
    (exists v, f_vars (B f) = [v] /\ In v V0) \/ (exists x y, f_vars (B f) = [x; y] /\ In x V0 /\ In y V0).
  (** at most one factor joins two variables *)
  Hypothesis src_pair : forall f g x y, In f L0 -> In g L0 -> f_vars (B f) = [x; y] ->
    f_vars (B g) = [x; y] \/ f_vars (B g) = [y; x] -> f = g.
  (** where the objects that stand for the factors are *)
  Variable mark : nat -> nat -> Prop.

  Lemma src_vars_in f v : In f L0 -> In v (f_vars (B f)) -> In v V0.
  Proof.
    intros J Jv. destruct (src_shape f J) as [(w & E & I)|(x & y & E & I & I')]; rewrite E in Jv.
    destruct Jv as [<-|[]]; auto. destruct Jv as [<-|[<-|[]]]; auto.
  Qed.

  (** {1 Invariant} *)

  (** [k] is the object that stands for the factor [f] of the source *)
  Definition twin s (f k : nat) : Prop :=
    f_group (r_h s k) = f_group (B f) /\
    (forall c, valid_comb (fsizes (B f)) c -> fval (r_h s k) c = fval (B f) c) /\
    mark f k.
  Definition ttwin s (f k : nat) : Prop :=
    twin s f k /\ f_exp (r_h s k) = f_exp (B f) /\
    forall c, valid_comb (fsizes (B f)) c -> fimg (r_h s k) c = fimg (B f) c.

  Record part (done : list nat) s : Prop := {
    pa_coh : coh True s;
    pa_blank : blank s;
    pa_top : t0 <= r_top s;
    pa_heap : forall f, f < t0 -> r_h s f = h0 f;
    pa_sub : incl done L0;
    pa_facs : Forall2 (twin s) done (g_all (r_g s));
    pa_vars : forall v, In v (g_vars (r_g s)) <-> exists f, In f done /\ In v (f_vars (B f))
  }.

  Lemma part_start : part [] (r_empty h0 t0).
  Proof.
    constructor; auto.
    - apply coh_empty; auto.
    - intros v. apply unobserved_none. reflexivity.
    - intros x [].
    - constructor.
    - simpl. intros v. split; [tauto|]. intros (f & [] & _).
  Qed.
  Lemma twin_ext s s' f k : r_h s' k = r_h s k -> twin s f k -> twin s' f k.
  Proof. unfold twin. intros ->. auto. Qed.
  Lemma ttwin_ext s s' f k : r_h s' k = r_h s k -> ttwin s f k -> ttwin s' f k.
  Proof. unfold ttwin, twin. intros ->. auto. Qed.
  Lemma part_ext done s s' : part done s -> coh True s' -> blank s' -> r_top s <= r_top s' -> g_vars (r_g s') = g_vars (r_g s) ->
    g_all (r_g s') = g_all (r_g s) -> (forall f, f < r_top s -> r_h s' f = r_h s f) -> part done s'.
  Proof.
    intros [C Bk T Hh Sb F V] C' B' T' Ev Ea E. constructor; auto.
    - lia.
    - intros f L. rewrite E by lia. auto.
    - rewrite Ea. eapply F2_mono; [|exact F]. intros a b _ J. apply twin_ext. apply E. apply (ri_top _ (ch_r _ _ C)); auto.
    - intros v. rewrite Ev. auto.
  Qed.

  Definition grow s s' : Prop := r_top s <= r_top s' /\ forall f, f < r_top s -> r_h s' f = r_h s f.
  Lemma grow_refl s : grow s s.
  Proof. split; auto. Qed.
  Lemma grow_trans s t u : grow s t -> grow t u -> grow s u.
  Proof. intros [A0 B0] [C0 D0]. split. lia. intros f L. rewrite D0 by lia. auto. Qed.

  (** an insertion in the graph *)
  Lemma insert_part done s f k : part done s -> In f L0 -> ~ In f done -> twin s f k -> k < r_top s ->
    ~ In k (g_all (r_g s)) ->
    exists g, on_g (fun g => add_distribution (r_h s) g (Some k)) s = Ret tt (set_g s g) /\ part (done ++ [f]) (set_g s g) /\
      g_all g = g_all (r_g s) ++ [k].
  Proof.
    intros PA J NJ TW L NK. pose proof (pa_coh _ _ PA) as C. pose proof TW as (TG & TV & TC).
    pose proof (add_does (r_h s) (coh_solid _ _ C) (r_g s) (spec_of (r_g s)) k (ch_inv _ _ C) (coh_abs _ _ C)) as (g & E & IV & AB & CL).
    assert (Sub : forall w, In w (sp_vars (spec_of (r_g s))) -> In w V0).
    { intros w Jw. apply (pa_vars _ _ PA) in Jw as (f' & J' & Jw'). apply (src_vars_in f'); auto. apply (pa_sub _ _ PA); auto. }
    assert (FK : fvars (r_h s) k = f_vars (B f)). { unfold fvars, f_vars. rewrite TG. auto. }
    assert (NE : existsb (Nat.eqb k) (sp_facs (spec_of (r_g s))) = false).
    { apply existsb_all_false. intros x Jx. apply Nat.eqb_neq. intros ->. auto. }
    assert (KEY : fst (sp_add (fvars (r_h s)) (spec_of (r_g s)) k) = false /\
      (forall w, In w (sp_vars (snd (sp_add (fvars (r_h s)) (spec_of (r_g s)) k))) <-> In w (g_vars (r_g s)) \/ In w (f_vars (B f))) /\
      sp_facs (snd (sp_add (fvars (r_h s)) (spec_of (r_g s)) k)) = g_all (r_g s) ++ [k]).
    { unfold sp_add. rewrite NE, FK. destruct (src_shape f J) as [(v & EV & Iv)|(x & y & EV & Ix & Iy)]; rewrite EV.
      - assert (NC : sp_conflict (spec_of (r_g s)) v = false) by (eapply no_conflict; eauto; apply src_nd).
        rewrite NC. cbn [fst snd]. split; auto. split.
        + intros w. unfold sp_push. cbn [sp_vars]. rewrite sp_insert_in by auto. simpl. intuition.
        + unfold sp_push, sp_insert. destruct (sp_known _ _); auto.
      - assert (NX : sp_conflict (spec_of (r_g s)) x = false) by (eapply no_conflict; eauto; apply src_nd).
        assert (NY : sp_conflict (spec_of (r_g s)) y = false) by (eapply no_conflict; eauto; apply src_nd).
        assert (NY' : sp_conflict (sp_insert (spec_of (r_g s)) x) y = false).
        { eapply no_conflict; [apply src_nd| |exact Iy]. intros w Jw. apply sp_insert_in in Jw as [Jw| ->]; auto. }
        rewrite NX, NY. assert (NJo : sp_joined (fvars (r_h s)) (spec_of (r_g s)) x y = false).
        { unfold sp_joined. apply existsb_all_false. intros j Jj. cbn [spec_of sp_facs] in Jj.
          destruct (F2_in_r _ _ _ (pa_facs _ _ PA) j Jj) as (f' & Jf' & TG' & _).
          assert (FJ : fvars (r_h s) j = f_vars (B f')) by (unfold fvars, f_vars; rewrite TG'; auto). rewrite FJ.
          destruct (f_vars (B f')) as [|a [|b [|]]] eqn:EF; auto.
          assert (NE' : ~ ([a; b] = [x; y] \/ [a; b] = [y; x])).
          { intros Q. apply NJ. assert (f = f'). { eapply src_pair; eauto. apply (pa_sub _ _ PA); auto. rewrite EF. auto. } congruence. }
          destruct (same_instance a x && same_instance b y) eqn:Q1.
          { apply andb_true_iff in Q1 as [Q1 Q2]. apply same_instance_spec in Q1, Q2. subst. exfalso. auto. }
          destruct (same_instance a y && same_instance b x) eqn:Q3; auto.
          apply andb_true_iff in Q3 as [Q3 Q2]. apply same_instance_spec in Q3, Q2. subst. exfalso. auto. }
        rewrite NJo. cbn [fst snd]. split; auto. split.
        + intros w. unfold sp_push. cbn [sp_vars]. rewrite sp_insert_in by auto. rewrite sp_insert_in by auto. simpl. intuition.
        + unfold sp_push, sp_insert. destruct (sp_known _ _); cbn [sp_facs]; destruct (sp_known _ _); auto. }
    destruct KEY as (K1 & K2 & K3). rewrite K1 in E.
    assert (EO : on_g (fun g => add_distribution (r_h s) g (Some k)) s = Ret tt (set_g s g)) by (unfold on_g; rewrite E; auto).
    assert (GA : g_all g = g_all (r_g s) ++ [k]) by (rewrite (ab_all _ _ AB); exact K3).
    pose proof (on_g_add_coh True s (Some k) C) as ST. rewrite EO in ST. cbn [ocoh] in ST.
    destruct ST as [C' _ U']. { intros j [= <-]. auto. }
    exists g. split; auto. split; auto. constructor; auto; try apply PA.
    - intros v. apply U'. apply (pa_blank _ _ PA).
    - intros x Jx. apply in_app_or in Jx as [Jx|[<-|[]]]; auto. apply (pa_sub _ _ PA); auto.
    - cbn [r_g set_g]. rewrite GA. apply Forall2_app; [apply (pa_facs _ _ PA)|constructor; auto].
    - intros v. cbn [r_g set_g]. rewrite (ab_vars _ _ AB), K2, (pa_vars _ _ PA). split.
      + intros [(f' & J' & Jv)|Jv]. exists f'. split; auto. apply in_or_app; auto. exists f. split; auto. apply in_or_app; simpl; auto.
      + intros (f' & J' & Jv). apply in_app_or in J' as [J'|[<-|[]]]; eauto.
  Qed.

  (** {1 Objects and const factors} *)
  Lemma alloc_part done s c : part done s -> built c ->
    part done (snd (alloc s c)) /\ grow s (snd (alloc s c)) /\ r_h (snd (alloc s c)) (r_top s) = c /\
    r_top s < r_top (snd (alloc s c)) /\ ~ In (r_top s) (g_all (r_g (snd (alloc s c)))).
  Proof.
    intros PA BC. pose proof (pa_coh _ _ PA) as C. pose proof (alloc_coh True s c C) as ST. cbn [alloc snd] in ST. destruct ST as [C' _ U']; auto.
    split. { eapply part_ext; [exact PA|exact C'| | | | |]; cbn [alloc snd r_top r_g r_h]; auto.
      intros v. apply U'. apply (pa_blank _ _ PA). intros k Lk. rewrite fupd_ne by lia. auto. }
    split. { split; simpl; auto. intros k Lk. rewrite fupd_ne by lia. auto. }
    cbn [alloc snd r_top r_g r_h]. rewrite fupd_eq. split; auto. split. lia. intros Q. apply (ri_top _ (ch_r _ _ C)) in Q. lia.
  Qed.
  Lemma add_const_part done s f k : part done s -> In f L0 -> ~ In f done -> twin s f k -> k < r_top s -> ~ In k (g_all (r_g s)) ->
    exists s', add_const (Some k) s = Ret tt s' /\ part (done ++ [f]) s' /\ r_tuners s' = r_tuners s /\ grow s s'.
  Proof.
    intros PT J NJ TW L NK. destruct (insert_part done s f k PT J NJ TW L NK) as (g & E & PG & GA).
    pose proof (add_const_coh True s (Some k) (pa_coh _ _ PT)) as ST. unfold add_const in *. rewrite E in *. cbn [obind ocoh] in *.
    destruct ST as [C' _ U']. { intros j [= <-]. auto. }
    eexists. split; [reflexivity|]. split; [|split; [reflexivity|split; auto]].
    eapply part_ext; [exact PG|exact C'| |auto|auto|auto|auto]. intros v. apply U'. apply (pa_blank _ _ PT).
  Qed.

  (** {1 Tunable factors} *)
  Lemma make_tuner_succeeds P s k : coh P s -> (forall v, In v (f_vars (r_h s k)) -> In v (g_vars (r_g s))) ->
    ((exists v, f_vars (r_h s k) = [v]) \/ (exists x y, f_vars (r_h s k) = [x; y])) -> exists t, make_tuner s k = Ok t /\ bt_fac t = k.
  Proof.
    intros C IN SH. pose proof (proj1 (ch_inv _ _ C)) as CO. pose proof (co_vars _ _ _ CO) as ND.
    assert (NDf : NoDup (f_vars (r_h s k))).
    { pose proof (coh_solid _ _ C k) as ((_ & [W _]) & _). apply NoDup_map_inv in W. exact W. }
    destruct (make_finder_ok (r_h s k) (g_vars (r_g s))) as (fd & EF & _). { apply NoDup_incl_length; auto. } { exact IN. }
    assert (NO : forall v, In v (f_vars (r_h s k)) -> exists a, node_of (r_g s) v = Ok a /\ node_var (r_g s) a = Ok v).
    { intros v Jv. apply IN in Jv. apply In_nth_error in Jv as (a & Va). destruct (locate_exists (r_g s) a v ND Va) as (l & E).
      exists a. unfold node_of. rewrite E. split; auto. apply node_var_ok; auto. }
    assert (M : exists t, make_tuner s k = Ok t).
    { unfold make_tuner. destruct SH as [(v & E)|(x & y & E)]; rewrite E in *.
      - destruct (NO v (or_introl eq_refl)) as (a & -> & _). cbn [rbind]. rewrite EF. cbn [rbind]. eauto.
      - destruct (NO x (or_introl eq_refl)) as (a & -> & NA). destruct (NO y (or_intror (or_introl eq_refl))) as (b & -> & NB).
        cbn [rbind]. rewrite EF. cbn [rbind]. rewrite NA, NB. cbn [rbind].
        assert (R : forall v, var_peqb v v = true) by (intros v; apply var_peqb_eq; auto).
        rewrite !R. simpl. eauto. }
    destruct M as (t & M). exists t. split; auto. eapply make_tuner_fac; eauto.
  Qed.
  Definition tunable f : Prop := In f L0 /\ exists w, f_exp (B f) = Some w.
  Lemma tunable_all f : tunable f -> In f L0.
  Proof. intros [J _]. auto. Qed.
  Lemma tunable_exp f : tunable f -> exists w, f_exp (B f) = Some w.
  Proof. intros [_ J]. auto. Qed.

  Lemma inserted_tuner done t f k g : part (done ++ [f]) (set_g t g) -> tunable f -> twin t f k ->
    exists b, make_tuner (set_g t g) k = Ok b /\ bt_fac b = k.
  Proof.
    intros PG J (TG & _). apply (make_tuner_succeeds True). apply PG.
    - intros v Jv. apply (pa_vars _ _ PG). exists f. split. apply in_or_app; simpl; auto. cbn [r_h set_g] in Jv. unfold f_vars in *. rewrite TG in Jv. auto.
    - cbn [r_h set_g]. unfold f_vars. rewrite TG. destruct (src_shape f (tunable_all f J)) as [(v & E & _)|(x & y & E & _)]; [left|right]; eauto.
  Qed.

  (** a tunable factor with its own weight *)
  Lemma add_own done t f k : part done t -> tunable f -> ~ In f done -> ttwin t f k -> k < r_top t -> ~ In k (g_all (r_g t)) ->
    exists s', add_tunable (Some k) None t = Ret tt s' /\ part (done ++ [f]) s' /\ tunable_clusters s' = tunable_clusters t ++ [[k]] /\ grow t s'.
  Proof.
    intros PA J NJ TW L NK. destruct (insert_part done t f k PA (tunable_all f J) NJ (proj1 TW) L NK) as (g & E & PG & GA).
    destruct (inserted_tuner done t f k g PG J (proj1 TW)) as (b & Eb & Fb).
    assert (X : expo t k). { split; auto. destruct TW as (_ & -> & _). destruct (tunable_exp f J) as (w & ->). discriminate. }
    pose proof (add_tunable_coh True t (Some k) None (pa_coh _ _ PA)) as ST.
    unfold add_tunable in *. rewrite E in *. cbn [obind] in *. rewrite Eb in *. cbn [lift obind ocoh] in *.
    destruct ST as [C' _ U']. { intros j [= <-]; auto. } { intros j [= <-]. congruence. }
    eexists. split; [reflexivity|]. split.
    { eapply part_ext; [exact PG|exact C'| |auto|auto|auto|auto]. intros v. apply U'. apply (pa_blank _ _ PA). }
    split. { unfold tunable_clusters. cbn [r_tuners set_tuners set_tun set_g]. rewrite map_app. simpl. rewrite Fb. auto. }
    split; auto.
  Qed.

  Definition tests s (group : list var) (c : list nat) : bool := existsb (fun k => vset_eqb (g_set (f_group (r_h s k))) group) c.
  Lemma tunes_tests s group x : tunes (r_h s) group x = tests s group (map bt_fac (bases x)).
  Proof. unfold tunes, tests. induction (bases x); simpl; auto. rewrite IHl. auto. Qed.
  Lemma lset_mid {A} (l r : list A) x y : lset (l ++ x :: r) (length l) y = l ++ y :: r.
  Proof. induction l; simpl; auto. rewrite IHl. auto. Qed.

  (** a tunable factor that shares the weight of a cluster, the first one with
      a factor on the given variables *)
  Lemma add_share done t f k group old c rest w : part done t -> tunable f -> ~ In f done -> ttwin t f k -> k < r_top t -> ~ In k (g_all (r_g t)) ->
    tunable_clusters t = old ++ c :: rest -> (forall d, In d old -> tests t group d = false) -> tests t group c = true ->
    (forall j, In j c -> f_exp (r_h t j) = Some w) -> f_exp (B f) = Some w ->
    exists s', add_tunable (Some k) (Some group) t = Ret tt s' /\ part (done ++ [f]) s' /\ tunable_clusters s' = old ++ (c ++ [k]) :: rest /\ grow t s' /\
      forall j, r_h s' j = r_h t j.
  Proof.
    intros PA J NJ TW L NK EC T0 T1 WC Wf. destruct (insert_part done t f k PA (tunable_all f J) NJ (proj1 TW) L NK) as (g & E & PG & GA).
    destruct (inserted_tuner done t f k g PG J (proj1 TW)) as (b & Eb & Fb).
    assert (Ek : f_exp (r_h t k) = Some w) by (destruct TW as (_ & -> & _); auto).
    assert (X : expo t k) by (split; auto; rewrite Ek; discriminate).
    pose proof (add_tunable_coh True t (Some k) (Some group) (pa_coh _ _ PA)) as ST.
    unfold tunable_clusters in EC. apply map_eq_app in EC as (ot & lx & EO & EM & EL). destruct lx as [|x rt]; try discriminate.
    cbn [map] in EL. injection EL as EX ER.
    assert (FT : find_tuner (set_tun (set_g t g) (r_tun (set_g t g) ++ [k])) group = Ok (length ot)).
    { unfold find_tuner. cbn [r_h r_tuners set_tun set_g]. rewrite EO. rewrite find_pos_app_none.
      - cbn [find_pos]. rewrite tunes_tests, EX, T1. simpl. f_equal. lia.
      - apply find_pos_none. intros y Jy. rewrite tunes_tests. apply T0. rewrite <- EM. apply in_map_iff. eauto. }
    assert (GT : vget (ot ++ x :: rt) (length ot) = Ok x). { unfold vget. rewrite nth_error_app2 by lia. rewrite Nat.sub_diag. auto. }
    assert (BX : exists b0 bs, bases x = b0 :: bs).
    { destruct (bases x) as [|b0 bs]; eauto. subst c. simpl in T1. discriminate. }
    destruct BX as (b0 & bs & BX).
    assert (TWE : tuner_weight (r_h t) (TComp (bases x ++ [b])) = Ok w).
    { rewrite BX. cbn [app tuner_weight]. unfold exp_get_weight. rewrite WC; auto. rewrite <- EX, BX. simpl; auto. }
    assert (ADD : add_tunable (Some k) (Some group) t =
      tuner_set_weight (TComp (bases x ++ [b])) w (set_tuners (set_tun (set_g t g) (r_tun (set_g t g) ++ [k])) (ot ++ TComp (bases x ++ [b]) :: rt))).
    { unfold add_tunable. rewrite E. cbn [obind]. rewrite Eb. cbn [lift obind]. rewrite FT. cbn [lift obind].
      cbn [r_tuners set_tun set_g]. rewrite EO, GT. cbn [lift obind]. cbn [r_tuners set_tun set_g]. cbv zeta. rewrite EO, lset_mid. cbn [r_h set_tuners set_tun set_g]. rewrite TWE. reflexivity. }
    rewrite ADD. rewrite ADD in ST. clear ADD.
    match goal with |- context [tuner_set_weight ?n w ?s3] => set (s3' := s3) in *; set (new := n) in * end.
    destruct (tuner_set_weight_ok w new s3') as (h' & E' & W1 & W2).
    { intros b' Jb. cbn [new bases] in Jb. change (r_h s3') with (r_h t). apply in_app_or in Jb as [Jb|[<-|[]]].
      rewrite WC. discriminate. rewrite <- EX. apply in_map; auto. rewrite Fb. apply X. }
    rewrite E'. rewrite E' in ST. cbn [ocoh] in ST.
    assert (HE : forall j, h' j = r_h t j).
    { intros j. change (r_h t) with (r_h s3'). destruct (in_dec Nat.eq_dec j (map bt_fac (bases new))) as [Jj|Jj]; [|apply W2; auto].
      rewrite W1 by auto. assert (Q : f_exp (r_h s3' j) = Some w).
      { cbn [new bases] in Jj. rewrite map_app in Jj. apply in_app_or in Jj as [Jj|[<-|[]]]. apply WC. rewrite <- EX. auto. rewrite Fb. auto. }
      rewrite <- Q. destruct (r_h s3' j); auto. }
    destruct ST as [C' _ U']. { intros j [= <-]; auto. } { intros j [= <-] _ v _. apply (pa_blank _ _ PA). }
    exists (set_h s3' h'). split; auto. split.
    { eapply part_ext; [exact PG|exact C'| |auto|auto|auto|]. intros v. apply U'. apply (pa_blank _ _ PA). intros j _. apply HE. }
    split. { unfold tunable_clusters. cbn [s3' r_tuners set_h set_tuners]. rewrite map_app, EM. cbn [map new bases]. rewrite map_app, EX, ER. cbn [map]. rewrite Fb. auto. }
    split; [split|]; auto.
  Qed.

End Plan.
