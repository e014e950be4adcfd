(** The propagation of the messages and the queries never go through undefined
    behaviour: no hypothesis on the values of the factors, only on the sizes of
    the variables. The divisions 0/0 ([NotNum]) stay possible. *)
From Coq Require Import String List Arith Bool Lia Permutation Relations.
From Verif Require Import Res Num Combs Categoric Func FuncProofs GroupProofs FactorProofs FactorApi Special SpecialProofs
  Graph GraphLemmas Clusters Belief Query GraphInv EvidInv BeliefInv BigOp Tree Cycle BPStep BPRun GraphSpec Hist BeliefSpec Sums Exact BeliefHist JointSpec Queries Joint SafeSpec.
Import ListNotations.
Open Scope nat_scope.

(** {1 Results that are neither exceptions nor undefined}

    [Z]: a division by zero can stop the computation *)
Section Outcomes.
Context {Z : Prop}.
Definition rok {A} (P : A -> Prop) (r : res A) : Prop :=
  match r with Ok a => P a | Nan => Z | Loop => True | _ => False end.
Definition ook {S A} (P : A -> S -> Prop) (o : out S A) : Prop :=
  match o with Ret a s => P a s | NotNum => Z | NoStop => True | _ => False end.

Lemma rok_bind {A B} (P : A -> Prop) (Q : B -> Prop) (r : res A) (f : A -> res B) : rok P r -> (forall a, P a -> rok Q (f a)) -> rok Q (rbind r f).
Proof. destruct r; simpl; auto. Qed.
Lemma rok_imp {A} (P Q : A -> Prop) (r : res A) : rok P r -> (forall a, P a -> Q a) -> rok Q r.
Proof. destruct r; simpl; auto. Qed.
Lemma rok_ok {A} (P : A -> Prop) (r : res A) : (exists a, r = Ok a /\ P a) -> rok P r.
Proof. intros (a & -> & Q). exact Q. Qed.
Lemma ook_bind {S A B} (P : A -> S -> Prop) (Q : B -> S -> Prop) (o : out S A) (f : A -> S -> out S B) :
  ook P o -> (forall a s, P a s -> ook Q (f a s)) -> ook Q (obind o f).
Proof. destruct o; simpl; auto. Qed.
Lemma ook_imp {S A} (P Q : A -> S -> Prop) (o : out S A) : ook P o -> (forall a s, P a s -> Q a s) -> ook Q o.
Proof. destruct o; simpl; auto. Qed.
Lemma ook_lift {S A} (P : A -> Prop) (r : res A) (s : S) : rok P r -> ook (fun a s' => P a /\ s' = s) (lift r s).
Proof. destruct r; simpl; auto. Qed.
Lemma ook_ret {S A} (P : A -> S -> Prop) (o : out S A) : (exists a s, o = Ret a s /\ P a s) -> ook P o.
Proof. intros (a & s & -> & Q). exact Q. Qed.
Lemma ofold_ook {S A} (f : A -> S -> out S unit) (P : list A -> S -> Prop) l s0 : P [] s0 ->
  (forall done a rest s, l = done ++ a :: rest -> P done s -> ook (fun _ s' => P (done ++ [a]) s') (f a s)) ->
  ook (fun _ s' => P l s') (ofold f l s0).
Proof.
  intros B St.
  assert (G : forall rest done s, l = done ++ rest -> P done s -> ook (fun _ s' => P l s') (ofold f rest s)).
  { induction rest as [|a rest IH]; intros done s El Pd.
    - simpl. rewrite app_nil_r in El. subst; auto.
    - simpl. eapply ook_bind; [apply (St done a rest s El Pd)|]. intros [] s' Q. apply (IH (done ++ [a])); auto. rewrite <- app_assoc; auto. }
  apply (G l [] s0); auto.
Qed.
Lemma rmap_rok {A B} (P : B -> Prop) (f : A -> res B) l : (forall a, In a l -> rok P (f a)) -> rok (Forall P) (rmap f l).
Proof.
  induction l as [|a l IH]; intros F; simpl. constructor.
  eapply rok_bind; [apply F; simpl; auto|]. intros b Pb. eapply rok_bind; [apply IH; intros; apply F; simpl; auto|].
  intros bs Pbs. simpl. auto.
Qed.

(** results that are not undefined *)
Definition nu {A} (P : A -> Prop) (r : res A) : Prop :=
  match r with Ok a => P a | UB => False | Nan => Z | _ => True end.
Lemma nu_bind {A B} (P : A -> Prop) (Q : B -> Prop) (r : res A) (f : A -> res B) : nu P r -> (forall a, P a -> nu Q (f a)) -> nu Q (rbind r f).
Proof. destruct r; simpl; auto. Qed.
Lemma nu_rok {A} (P : A -> Prop) (r : res A) : rok P r -> nu P r.
Proof. destruct r; simpl; auto. Qed.
Lemma nu_imp {A} (P Q : A -> Prop) (r : res A) : nu P r -> (forall a, P a -> Q a) -> nu Q r.
Proof. destruct r; simpl; auto. Qed.
Lemma rmap_nu {A B} (P : B -> Prop) (f : A -> res B) l : (forall a, In a l -> nu P (f a)) -> nu (Forall P) (rmap f l).
Proof.
  induction l as [|a l IH]; intros F; simpl. constructor.
  eapply nu_bind; [apply F; simpl; auto|]. intros b Pb. eapply nu_bind; [apply IH; intros; apply F; simpl; auto|].
  intros bs Pbs. simpl. auto.
Qed.
Lemma rfold_nu {A S} (P : S -> Prop) (f : S -> A -> res S) l : (forall s x, In x l -> P s -> nu P (f s x)) -> forall s, P s -> nu P (rfold f l s).
Proof.
  induction l as [|a l IH]; intros F s Ps; simpl; auto.
  eapply nu_bind; [apply F; simpl; auto|]. intros s' Ps'. apply IH; auto. intros; apply F; simpl; auto.
Qed.
(** calls that do not go through undefined behaviour *)
Definition defined {S A} (o : out S A) : Prop := match o with Undef => False | NotNum => Z | _ => True end.
Lemma defined_lift {S A} (r : res A) (s : S) P : nu P r -> defined (lift r s).
Proof. destruct r; simpl; auto. Qed.
Lemma defined_bind {S A B} (P : A -> S -> Prop) (o : out S A) (f : A -> S -> out S B) : ook P o -> (forall a s, P a s -> defined (f a s)) -> defined (obind o f).
Proof. destruct o; simpl; auto. Qed.
End Outcomes.
(** the arithmetic has divisors that stop the computation *)
Definition stops (N : num) : Prop := exists x : N, ndz x = true.

Section Safe.
  Context {N : num}.
  Notation rok := (@rok (stops N) _).
  Notation ook := (@ook (stops N) _ _).
  Notation nu := (@nu (stops N) _).
  Notation defined := (@defined (stops N) _ _).
  Variable H : nat -> func N.
  Hypothesis HG : solids H.
  Notation gst := (gst (N:=N)).
  Notation conn := (conn (N:=N)).
  Implicit Types s : gst.
  Notation core := (core H).
  Notation answer := (answer (N:=N)).
  Lemma defined_omap {B} (f : B -> answer) (o : out gst B) : defined o -> defined (omap f o).
  Proof. destruct o; simpl; auto. Qed.

  (** the shapes of the results do not depend on the laws of the numbers *)
  Lemma merged_fold_shape v fs : Forall (unary v) fs -> forall h : nat -> N,
    exists h', rfold merged_merge (map Some fs) (dense_fun v h) = Ok (dense_fun v h').
  Proof.
    induction 1 as [|f fs U F IH]; intros h; cbn [map rfold]. eauto. rewrite (merged_merge_ok v h f U). cbn [rbind]. apply IH.
  Qed.
  Lemma merged_unaries_shape v fs : Forall (unary v) fs -> fs <> [] -> 0 < vsize v -> rok (unary v) (merged_unaries (N:=N) (map Some fs)).
  Proof.
    intros F Hne P. destruct fs as [|f0 fs]; [congruence|]. unfold merged_unaries.
    cbn [map]. rewrite <- (map_cons Some). destruct (Forall_inv F) as [W0 E0].
    rewrite E0. cbn [vget nth_error rbind]. rewrite mergable_dense.
    destruct (merged_fold_shape v (f0 :: fs) F (fun _ => n1)) as (h & Eh). rewrite Eh. cbn [rbind]. unfold mergable_normalize. simpl f_data. cbv iota.
    destruct (vsize v) as [|n] eqn:Ev; [lia|]. cbn [seq map max_element rbind]. destruct (ndz _) eqn:DZ; simpl; [eexists; eauto|].
    match goal with |- unary _ (with_data _ (Dense (_ :: map (fun v => (v * ?c)%num) _))) =>
      replace (with_data _ _) with (dense_fun v (fun k => (h k * c)%num)) end.
    - apply dense_fun_unary. lia.
    - unfold with_data, dense_fun. rewrite Ev. simpl. do 3 f_equal. rewrite map_map. reflexivity.
  Qed.
  Lemma gather_shape s fs e a va : core s fs -> env_ok e -> g_ev s a = None -> var_at s a va ->
    exists l, gather_unaries H e s a = map Some l /\ Forall (unary va) l.
  Proof.
    intros C E Ev Ha.
    assert (G : forall ks, (forall b, In b ks -> exists c, dis s a b = Some c) -> exists l,
      map (fun b => match dis s a b with Some c => c_msg c | None => None end) ks = map Some l /\ Forall (unary va) l).
    { induction ks as [|b ks IH]; intros F.
      - exists []. auto.
      - destruct IH as (l & E1 & E2); [intros; apply F; simpl; auto|].
        destruct (F b (or_introl eq_refl)) as [c D]. destruct (g_ev s b) as [k|] eqn:Eb.
        2:{ rewrite (co_hh _ _ _ C a b Ev Eb) in D. discriminate. }
        destruct (co_ev _ _ _ C _ _ Eb) as (vb & Hb & Lk).
        destruct (co_msg _ _ _ C a b c k vb Ev Eb D Hb) as (m & Em & Ee).
        destruct (co_dis _ _ _ C _ _ _ D) as (NE & _ & va' & vb' & Ha' & Hb' & Q).
        assert (va' = va) by (eapply var_at_fun; eauto). assert (vb' = vb) by (eapply var_at_fun; eauto). subst.
        assert (X : exists x y, fvars H (c_fac c) = [x; y] /\ (vb = x /\ va = y \/ vb = y /\ va = x)).
        { destruct Q as [Q|Q]; eexists _, _; split; eauto. }
        destruct X as (x & y & Ef & Ho).
        destruct (evidence_factor_ok _ x y vb va k (factor_binary H HG _ _ _ Ef) Ho Lk) as (m' & Em' & U & _).
        assert (m' = m) by congruence. subst m'. exists (m :: l). simpl. rewrite D, Em, E1. auto. }
    destruct (G (e_ord e a (keys (gsize s) (nd_dis (g_node s a))))) as (l & E1 & E2).
    { intros b I. apply ord_In in I; auto. apply keys_In in I. apply I. }
    exists (map H (nd_un (g_node s a)) ++ l). unfold gather_unaries. rewrite E1, map_app, map_map. split; auto.
    apply Forall_app. split; auto. apply Forall_forall. intros f I. apply in_map_iff in I as (g & <- & I).
    destruct (co_un _ _ _ C a g I) as (_ & v & Hv & Ef). rewrite (var_at_fun _ _ _ _ Hv Ha) in Ef.
    split; auto. destruct (HG g) as ((W & _) & _). auto.
  Qed.
  Lemma get_probabilities_shape (f : func N) : wf_func f -> exists l, get_probabilities f = Ok l /\ length l = length (all_combs (fsizes f)).
  Proof.
    intros W. unfold get_probabilities. rewrite f_each_ok by auto. cbn [rbind]. destruct (neqb _ _); eexists; (split; [reflexivity|]); rewrite !map_length; auto.
  Qed.
  Lemma diff_shape v (f g : func N) : unary v f -> unary v g -> exists d, diff f g = Ok d.
  Proof.
    intros U1 U2. unfold diff. destruct (get_probabilities_shape f (proj1 U1)) as (l & -> & L1), (get_probabilities_shape g (proj1 U2)) as (l' & -> & L2).
    cbn [rbind]. apply diff_loop_ok. rewrite L1, L2, (unary_fsizes v f), (unary_fsizes v g); auto.
  Qed.

  Lemma merged_unaries_rok v l : Forall (unary v) l -> l <> [] -> rok (unary v) (merged_unaries (N:=N) (map Some l)).
  Proof.
    intros F NE. assert (P : 0 < vsize v). { destruct l as [|f l]; [congruence|]. inversion F; subst. eapply unary_pos; eauto. }
    apply merged_unaries_shape; auto.
  Qed.

  Lemma merge_of_rok s fs e a va : core s fs -> env_ok e -> g_ev s a = None -> var_at s a va -> rok (unary va) (merge_of H e s a).
  Proof.
    intros C E Ev Ha. destruct (gather_shape s fs e a va C E Ev Ha) as (l & E1 & E2). unfold merge_of. rewrite E1.
    assert (P : 0 < vsize va). { pose proof (co_made _ _ _ C) as M. rewrite Forall_forall in M. apply made_pos, M. eapply nth_error_In; exact Ha. }
    destruct l as [|f0 l].
    - simpl. unfold node_var, vget. unfold var_at in Ha. rewrite Ha. cbn [rbind]. simpl. unfold merged_var. rewrite mergable_dense. apply dense_fun_unary; auto.
    - pose proof (merged_unaries_rok va (f0 :: l) E2 ltac:(discriminate)) as Q. exact Q.
  Qed.

  (** {1 Propagation} *)
  Section Run.
  Variable fs : list nat.
  Variable s0 : gst.
  Hypothesis C0 : core s0 fs.
  Hypothesis CS0 : clus s0.
  Hypothesis CL0 : clean s0.
  Hypothesis EV0 : evened s0.
  Notation sz := (szn s0).
  Notation adj := (adjb s0).
  Notation nds := (map cl_nodes (g_cl s0)).

  Definition umsg s : Prop := forall a b c m vb, act s b a = Some c -> c_msg c = Some m -> var_at s0 b vb -> unary vb m.
  Definition wst s : Prop := keeps H s0 s /\ umsg s.
  Lemma wst_core s : wst s -> core s fs.
  Proof. intros [K _]. eapply keeps_core; eauto. Qed.
  Lemma wst_clus s : wst s -> clus s.
  Proof. intros [K _]. eapply keeps_clus; eauto. Qed.
  Lemma wst_var s a v : wst s -> (var_at s a v <-> var_at s0 a v).
  Proof. intros [K _]. unfold var_at. rewrite (kp_vars _ _ _ K). tauto. Qed.

  Lemma wmerged s a m va : wst s -> a < gsize s0 -> g_ev s0 a = None -> var_at s0 a va -> nd_merged (g_node s a) = Some m -> unary va m.
  Proof.
    intros S L E Ha Em. pose proof (wst_core s S) as C. pose proof S as [K _].
    assert (Ev : g_ev s a = None) by (rewrite (kp_ev _ _ _ K); auto).
    destruct (co_merged _ _ _ C a m Ev Em) as (e & He & Q).
    pose proof (merge_of_rok s fs e a va C He Ev) as R. rewrite Q in R. apply R. apply wst_var; auto.
  Qed.

  (** what an update of the messages leaves *)
  Record mup s s' : Prop := {
    mu_st : wst s';
    mu_fr : mframe s s';
    mu_mg : forall a, nd_merged (g_node s' a) = nd_merged (g_node s a);
    mu_has : forall a b, has s a b -> has s' a b
  }.
  Lemma mup_refl s : wst s -> mup s s.
  Proof. intros S. split; auto. apply mframe_refl. Qed.
  Lemma mup_trans s1 s2 s3 : mup s1 s2 -> mup s2 s3 -> mup s1 s3.
  Proof. intros [A1 A2 A3 A4] [B1 B2 B3 B4]. split; auto. eapply mframe_trans; eauto. intros a. rewrite B3; auto. Qed.

  Lemma set_msg_mup s a b c m va : wst s -> act s a b = Some c -> var_at s0 a va -> unary va m ->
    exists s', set_act_msg s a b (Some m) = Ret tt s' /\ mup s s' /\ has s' b a.
  Proof.
    intros S Ec Ha U. destruct (set_act_msg_spec s a b c (Some m) Ec) as (s' & Es & F & FM & Eb & Eo).
    pose proof (keeps_set_msg H s a b c (Some m) s' Ec Es) as K'. exists s'. split; auto.
    assert (HS : has s' b a) by (exists (with_msg c (Some m)), m; auto). split; auto. split; auto.
    - split. { eapply keeps_trans; [apply S|exact K']. } intros a' b' c' m' v' Q1 Q2 Hv. destruct (pair_dec (b', a') (a, b)) as [Q|Q].
      + injection Q as -> ->. rewrite Eb in Q1. injection Q1 as <-. simpl in Q2. injection Q2 as <-. rewrite (var_at_fun _ _ _ _ Hv Ha). auto.
      + rewrite Eo in Q1 by auto. eapply S; eauto.
    - intros y z Hh. destruct (pair_dec (z, y) (a, b)) as [Q|Q]. injection Q as -> ->; auto. destruct Hh as (c' & m' & E1 & E2).
      exists c', m'. rewrite Eo; auto.
  Qed.

  Lemma wentry s t : wst s -> entry_ok s0 t -> entry_ok s t.
  Proof. intros [K _] E. eapply entry_ok_ext; [|exact E]. intros a b. apply (keeps_uid H); auto. Qed.
  Lemma wdeps s t : wst s -> entry_ok s0 t -> forall k w, In (k, w) (t_deps t) -> exists c, act s (t_snd t) k = Some c /\ c_uid c = w.
  Proof. intros S E k w I. apply (wentry s t S) in E as (_ & _ & D). apply D in I. tauto. Qed.

  Lemma update_message_wok k s t : wst s -> entry_ok s0 t -> (exists mu, nd_merged (g_node s (t_snd t)) = Some mu) ->
    (forall d, In d (map fst (t_deps t)) -> has s d (t_snd t)) ->
    ook (fun v s' => v <> None /\ mup s s' /\ has s' (t_snd t) (t_rcv t)) (update_message H k t s).
  Proof.
    intros S E [mu Emu] Hs. pose proof (wst_core s S) as C. pose proof S as [K MG].
    set (a := t_snd t) in *. set (b := t_rcv t) in *.
    pose proof (entry_adj H fs s0 C0 t E) as A. fold a b in A. destruct (adj_facts H fs s0 C0 CL0 EV0 a b A) as (NE & La & Lb & Ea & Eb & SZ).
    destruct (var_at_ex _ _ La) as (va & Ha). destruct (var_at_ex _ _ Lb) as (vb & Hb).
    assert (Sa : sz a = vsize va) by (apply szn_at; auto). assert (Sb : sz b = vsize vb) by (apply szn_at; auto).
    pose proof (wmerged s a mu va S La Ea Ha Emu) as Umu.
    destruct (dep_messages_ok s a (t_deps t) (wdeps s t S E) Hs) as (ms & Ed & Ims & _).
    unfold update_message. fold a. rewrite Emu, Ed. cbn [lift obind].
    assert (Ums : Forall (unary va) (mu :: ms)).
    { constructor; auto. apply Forall_forall. intros m I. destruct (Ims m I) as (z & c & Ez & Em). eapply MG; eauto. }
    change (Some mu :: map Some ms) with (map Some (mu :: ms)).
    eapply ook_bind; [apply ook_lift; apply (merged_unaries_rok va (mu :: ms) Ums ltac:(discriminate))|]. intros mg s1 [Umg ->].
    destruct (wentry s t S E) as ((c & Ec & Euid) & _). fold a b in Ec. unfold deref. fold b. rewrite Ec, Euid, Nat.eqb_refl. cbn [lift obind].
    destruct (co_act _ _ _ C _ _ _ Ec) as (_ & _ & vb' & va' & Hb' & Ha' & Ef).
    apply (wst_var s _ _ S) in Ha', Hb'. rewrite (var_at_fun _ _ _ _ Ha' Ha), (var_at_fun _ _ _ _ Hb' Hb) in Ef. clear va' vb' Ha' Hb'.
    assert (X : exists y z, fvars H (c_fac c) = [y; z] /\ (va = y /\ vb = z \/ va = z /\ vb = y)).
    { destruct Ef as [Ef|Ef]; eexists _, _; split; eauto. }
    destruct X as (y & z & Ey & Ho).
    destruct (message_ok k mg (H (c_fac c)) y z va vb Umg (factor_binary H HG _ _ _ Ey) Ho ltac:(congruence)) as (m & Em & Um & _).
    rewrite Em. cbn [lift obind]. destruct (set_msg_mup s b a c m vb S Ec Hb Um) as (s' & Es & M & HS). rewrite Es. cbn [obind].
    destruct (c_msg c) as [old|] eqn:Eold.
    - destruct (diff_shape vb old m) as (d & Ed'); auto. { eapply MG; eauto. } rewrite Ed'. cbn [lift obind ook]. split; [discriminate|auto].
    - cbn [ook]. split; [discriminate|auto].
  Qed.

  (** {1 Message passing} *)
  Section OneCluster.
    Variable S : list nat.
    Variable ts : list topo.
    Hypothesis TO : topo_ok s0 S ts.
    Hypothesis SC : forall a b, In a S -> adj a b = true -> In b S.
    Variable k : kind.

    Lemma wmp_round l : incl l ts -> forall s, wst s -> allm s S -> (forall t, In t l -> forall d, In d (map fst (t_deps t)) -> has s d (t_snd t)) ->
      ook (fun _ s' => mup s s' /\ forall t, In t l -> has s' (t_snd t) (t_rcv t))
        (ofold (fun t s => do (_, s) <- update_message H k t s ;; Ret tt s) l s).
    Proof.
      intros I s W AM HD.
      eapply ook_imp; [apply (ofold_ook (fun t s => do (_, s) <- update_message H k t s ;; Ret tt s)
        (fun done s' => mup s s' /\ forall t, In t done -> has s' (t_snd t) (t_rcv t)) l s)|].
      - split. apply mup_refl; auto. intros t [].
      - intros done t rest s1 El [M1 D1]. assert (It : In t l) by (rewrite El; apply in_or_app; simpl; auto).
        eapply ook_bind; [apply (update_message_wok k s1 t)|].
        + apply M1.
        + apply (tk_entry _ _ _ TO); auto.
        + rewrite (mu_mg _ _ M1). apply AM. apply (edge_snd s0 S ts TO SC); auto.
        + intros d Id. apply (mu_has _ _ M1). eapply HD; eauto.
        + intros v s2 (_ & M2 & H2). cbn [ook]. split. eapply mup_trans; eauto.
          intros t' J. apply in_app_iff in J as [J|[<-|[]]]; auto. apply (mu_has _ _ M2); auto.
      - auto.
    Qed.
    Lemma wselect s left : wst s -> incl left ts -> exists ready wait, select s left = Ok (ready, wait) /\ Permutation (ready ++ wait) left /\
      forall t, In t ready -> forall d, In d (map fst (t_deps t)) -> has s d (t_snd t).
    Proof.
      intros W. induction left as [|t l IH]; intros I.
      - exists [], []. splits; auto. intros t [].
      - destruct IH as (r & w & E1 & P1 & D1). { intros y J; apply I; simpl; auto. }
        destruct (can_update_ok s (t_snd t) (t_deps t)) as (b & E2 & B1 & _).
        { apply wdeps; auto. apply (tk_entry _ _ _ TO). apply I; simpl; auto. }
        simpl. rewrite E2. cbn [rbind]. rewrite E1. cbn [rbind]. destruct b.
        + exists (t :: r), w. splits; auto. simpl; auto. intros t' [<-|J]; auto.
        + exists r, (t :: w). splits; auto. rewrite <- Permutation_middle. auto.
    Qed.
    Lemma wmp_loop e pool : env_ok e -> forall n left s, incl left ts -> wst s -> allm s S ->
      (forall t, In t ts -> In t left \/ has s (t_snd t) (t_rcv t)) ->
      ook (fun b s' => mup s s' /\ (b = true -> forall t, In t ts -> has s' (t_snd t) (t_rcv t))) (mp_loop H n e pool k left s).
    Proof.
      intros E. induction n as [|n IH]; intros left s I W AM D.
      - destruct left as [|t0 l0]; simpl; auto. split. apply mup_refl; auto. intros _ t It. destruct (D t It) as [[]|Q]; auto.
      - destruct left as [|t0 l0]; cbn [mp_loop].
        { split. apply mup_refl; auto. intros _ t It. destruct (D t It) as [[]|Q]; auto. }
        set (left := t0 :: l0) in *. destruct (wselect s left W I) as (ready & wait & Es & P & DD). rewrite Es. cbn [lift obind].
        destruct ready as [|t1 r1]. { simpl. split. apply mup_refl; auto. discriminate. }
        set (ready := t1 :: r1) in *. assert (IR : incl ready ts). { intros t J. apply I. apply (Permutation_in _ P). apply in_or_app; auto. }
        pose proof (schedule_perm e pool ready E) as PS.
        eapply ook_bind; [apply (wmp_round (schedule e pool ready))|]; auto.
        { intros t J. apply IR. eapply Permutation_in; eauto. }
        { intros t J. apply DD. eapply Permutation_in; eauto. }
        intros [] s1 [M1 H1]. eapply ook_imp; [apply IH|].
        + intros t J. apply I. apply (Permutation_in _ P). apply in_or_app; auto.
        + apply M1.
        + intros a Ia. rewrite (mu_mg _ _ M1). auto.
        + intros t It. destruct (D t It) as [J|Q]; [|right; apply (mu_has _ _ M1); auto].
          apply (Permutation_in _ (Permutation_sym P)) in J. apply in_app_iff in J as [J|J]; auto.
          right. apply H1. eapply Permutation_in; [apply Permutation_sym; exact PS|auto].
        + intros b s2 [M2 B2]. split; auto. eapply mup_trans; eauto.
    Qed.

    (** {1 Loopy propagation} *)
    Definition wfull s : Prop := forall a b, In a S -> adj a b = true -> has s a b.
    Lemma edges_full s : (forall t, In t ts -> has s (t_snd t) (t_rcv t)) -> wfull s.
    Proof.
      intros F a b Ia A. assert (J : In (a, b) (map t_edge ts)) by (apply (BPRun.edge_In s0 S ts TO); auto).
      apply in_map_iff in J as (t & Et & It). injection Et as <- <-. auto.
    Qed.
    Lemma wfull_mup s s' : mup s s' -> wfull s -> wfull s'.
    Proof. intros M F a b Ia A. apply (mu_has _ _ M). auto. Qed.
    Lemma allm_mup s s' : mup s s' -> allm s S -> allm s' S.
    Proof. intros M F a Ia. rewrite (mu_mg _ _ M). auto. Qed.

    Lemma wloopy_tasks l : incl l ts -> forall v s, wst s -> allm s S -> wfull s -> ook (fun _ s' => mup s s') (loopy_tasks H k l v s).
    Proof.
      induction l as [|t l IH]; intros I v s W AM F; cbn [loopy_tasks].
      - apply mup_refl; auto.
      - assert (It : In t ts) by (apply I; simpl; auto). destruct (edge_snd s0 S ts TO SC t It) as (Ia & Ib & A).
        eapply ook_bind; [apply (update_message_wok k s t W (tk_entry _ _ _ TO t It) (AM _ Ia))|].
        { intros d Id. apply (Permutation_in _ (deps_perm H fs s0 C0 t (tk_entry _ _ _ TO t It))) in Id. apply filter_In in Id as [Id _].
          apply (nbs_In H fs s0 C0) in Id. apply F; [apply (SC (t_snd t)); auto|rewrite (adj_sym H fs s0 C0); auto]. }
        intros [w|] s1 (NN & M1 & _); [|congruence]. eapply ook_imp; [apply IH|].
        + intros y J; apply I; simpl; auto.
        + apply M1.
        + eapply allm_mup; eauto.
        + eapply wfull_mup; eauto.
        + intros ? s2 M2. cbv beta in M2. eapply mup_trans; eauto.
    Qed.
    Lemma wloopy_sweep e pool bs : env_ok e -> (forall b, In b bs -> incl b ts) -> forall v s, wst s -> allm s S -> wfull s ->
      ook (fun _ s' => mup s s') (loopy_sweep H e pool k bs v s).
    Proof.
      intros E. induction bs as [|b bs IH]; intros I v s W AM F; cbn [loopy_sweep].
      - apply mup_refl; auto.
      - eapply ook_bind; [apply wloopy_tasks; eauto|].
        { intros t Ht. apply (Permutation_in _ (schedule_perm e pool b E)) in Ht. apply (I b); simpl; auto. }
        intros v1 s1 M1. cbv beta in M1. eapply ook_imp; [apply IH|].
        + intros b' J. apply (I b'). right; exact J.
        + apply M1.
        + eapply allm_mup; eauto.
        + eapply wfull_mup; eauto.
        + intros ? s2 M2. cbv beta in M2. eapply mup_trans; eauto.
    Qed.
    Lemma wloopy_iter e pool bs : env_ok e -> (forall b, In b bs -> incl b ts) -> forall n s, wst s -> allm s S -> wfull s ->
      ook (fun _ s' => mup s s') (loopy_iter H n e pool k bs s).
    Proof.
      intros E I. induction n as [|n IH]; intros s W AM F; cbn [loopy_iter].
      - apply mup_refl; auto.
      - eapply ook_bind; [apply wloopy_sweep; eauto|]. intros v s1 M1. cbv beta in M1. destruct (below_tolerance v); cbn [ook]; auto.
        eapply ook_imp; [apply IH|].
        + apply M1.
        + eapply allm_mup; eauto.
        + eapply wfull_mup; eauto.
        + intros ? s2 M2. cbv beta in M2. eapply mup_trans; eauto.
    Qed.

    Hypothesis SH : forall a, In a S -> a < gsize s0 /\ g_ev s0 a = None.
    Lemma wset_ones e cl s : env_ok e -> wst s -> cl_nodes cl = S -> ook (fun _ s' => mup s s' /\ wfull s') (set_ones e cl s).
    Proof.
      intros E W En. unfold set_ones. rewrite En.
      eapply ook_imp; [apply (ofold_ook (fun a s => do (v, s) <- lift (node_var s a) s ;;
          ofold (fun b s => set_act_msg s a b (Some (merged_var v))) (e_ord e a (keys (gsize s) (nd_act (g_node s a)))) s)
        (fun done s2 => mup s s2 /\ (forall a b, In a done -> adj a b = true -> has s2 b a)) (e_ord e (gsize s) S) s)|].
      - split. apply mup_refl; auto. intros a b [].
      - intros done a rest s1 El [M1 D1]. assert (Ia : In a S). { apply (ord_In e (gsize s) S a E). rewrite El. apply in_or_app; simpl; auto. }
        destruct (SH a Ia) as [La Ea]. destruct (var_at_ex _ _ La) as (v & Hv). pose proof (mu_st _ _ M1) as W1. pose proof W1 as [K1 _].
        assert (NV : node_var s1 a = Ok v). { unfold node_var, vget. rewrite (kp_vars _ _ _ K1). unfold var_at in Hv. rewrite Hv. auto. }
        rewrite NV. cbn [lift obind]. assert (P : 0 < vsize v). { pose proof (co_made _ _ _ C0) as Q. rewrite Forall_forall in Q. apply made_pos, Q. eapply nth_error_In; exact Hv. }
        assert (U : unary v (merged_var (N:=N) v)). { unfold merged_var. rewrite mergable_dense. apply dense_fun_unary; auto. }
        eapply ook_imp; [apply (ofold_ook (fun b s => set_act_msg s a b (Some (merged_var v)))
          (fun done s2 => mup s1 s2 /\ (forall b, In b done -> has s2 b a)) (e_ord e a (keys (gsize s1) (nd_act (g_node s1 a)))) s1)|].
        + split. apply mup_refl; auto. intros b [].
        + intros done' b rest' s2 El' [M2 D2].
          assert (Ib : In b (keys (gsize s1) (nd_act (g_node s1 a)))). { apply (ord_In e a _ b E). rewrite El'. apply in_or_app; simpl; auto. }
          apply keys_In in Ib as (_ & c1 & Ec1). change (act s1 a b = Some c1) in Ec1.
          apply (keeps_act H _ _ _ _ _ K1) in Ec1 as (c0 & Ec0 & _). pose proof (mu_st _ _ M2) as W2. pose proof W2 as [K2 _].
          apply (keeps_act' H _ _ _ _ _ K2) in Ec0 as (c2 & Ec2 & _).
          destruct (set_msg_mup s2 a b c2 (merged_var v) v W2 Ec2 Hv U) as (s3 & Es & M3 & H3). rewrite Es. cbn [ook].
          split. eapply mup_trans; eauto. intros b' J. apply in_app_iff in J as [J|[<-|[]]]; auto. apply (mu_has _ _ M3); auto.
        + intros ? s2 [M2 D2]. split. eapply mup_trans; eauto. intros a' b J A. apply in_app_iff in J as [J|[<-|[]]].
          * apply (mu_has _ _ M2); auto.
          * apply D2. apply ord_In; auto. rewrite (keeps_keys H s0 s1 a K1). apply (nbs_In H fs s0 C0); auto.
      - intros [] s' [M D]. split; auto. intros a b Ia A. apply D. apply ord_In; auto. apply (SC a); auto. rewrite (adj_sym H fs s0 C0); auto.
    Qed.
  End OneCluster.

  (** {1 All the clusters} *)
  Record grow s s' : Prop := {
    gr_st : wst s';
    gr_mg : mgrow s s';
    gr_has : forall a b, has s a b -> has s' a b;
    gr_pool : g_pool s' = g_pool s
  }.
  Lemma grow_refl s : wst s -> grow s s.
  Proof. intros W. split; auto. apply mgrow_refl. Qed.
  Lemma grow_trans s1 s2 s3 : grow s1 s2 -> grow s2 s3 -> grow s1 s3.
  Proof. intros [A1 A2 A3 A4] [B1 B2 B3 B4]. split; auto. eapply mgrow_trans; eauto. congruence. Qed.
  Lemma mup_grow s s' : mup s s' -> grow s s'.
  Proof. intros [A1 A2 A3 A4]. split; auto. apply mgrow_eq; auto. apply A2. Qed.

  Lemma wupdate_merged e a s : env_ok e -> wst s -> a < gsize s0 -> g_ev s0 a = None ->
    ook (fun _ s' => grow s s' /\ g_cl s' = g_cl s /\ allm s' [a]) (update_merged H e a s).
  Proof.
    intros E W La Ea. pose proof (wst_core s W) as C. pose proof W as [K UM]. destruct (var_at_ex _ _ La) as (v & Hv).
    assert (Ev : g_ev s a = None) by (rewrite (kp_ev _ _ _ K); auto).
    pose proof (merge_of_rok s fs e a v C E Ev (proj2 (wst_var s a v W) Hv)) as Q.
    rewrite update_merged_eq. destruct (merge_of H e s a) as [m| | | |] eqn:Em; cbn [lift obind]; simpl in Q |- *; auto.
    assert (SA : same_act s (set_merged s a m)).
    { intros y z. unfold act. simpl. unfold fupd. destruct (Nat.eqb_spec y a); subst; auto. }
    split; [|split; auto].
    - split; auto.
      + split. eapply keeps_trans; [exact K|]. apply set_merged_keeps. exists e; auto. intros y z c m' v'. rewrite SA. apply UM.
      + intros y my. simpl. unfold fupd. destruct (Nat.eqb_spec y a); subst; simpl; eauto.
      + intros y z (c & m' & Q1 & Q2). exists c, m'. rewrite SA. auto.
    - intros y [<-|[]]. simpl. unfold fupd. rewrite Nat.eqb_refl. simpl. eauto.
  Qed.

  Lemma wtopo_loop e nodes : env_ok e -> (forall a, In a nodes -> a < gsize s0 /\ g_ev s0 a = None) -> forall acc s, wst s ->
    ook (fun _ s' => grow s s' /\ g_cl s' = g_cl s /\ allm s' nodes) (topo_loop H e nodes acc s).
  Proof.
    intros E. induction nodes as [|a nodes IH]; intros HN acc s W; cbn [topo_loop].
    - split. apply grow_refl; auto. split; auto. intros a [].
    - destruct (HN a (or_introl eq_refl)) as [La Ea]. eapply ook_bind; [apply (wupdate_merged e a s E W La Ea)|]. intros [] s1 (G1 & F1 & A1).
      destruct (sender_topo_ok H s1 fs e a (wst_core s1 (gr_st _ _ G1)) E) as (ts1 & Et & _). rewrite Et. cbn [lift obind].
      eapply ook_imp; [apply IH|].
      + intros; apply HN; simpl; auto.
      + apply G1.
      + intros ts s2 (G2 & F2 & A2). split. eapply grow_trans; eauto. split. congruence.
        intros b [<-|I]; auto. destruct (A1 a (or_introl eq_refl)) as [m Em]. apply (gr_mg _ _ G2 _ _ Em).
  Qed.

  Lemma wget_cl s i S : wst s -> nth_error nds i = Some S -> exists cl, get_cl s i = Ok cl /\ nth_error (g_cl s) i = Some cl /\ cl_nodes cl = S.
  Proof.
    intros [K _] Hi. assert (En : map cl_nodes (g_cl s) = nds) by (apply (kp_cl _ _ _ K)). rewrite <- En in Hi. rewrite nth_error_map in Hi. unfold get_cl, vget.
    destruct (nth_error (g_cl s) i) as [cl|]; simpl in Hi; [|discriminate]. exists cl. splits; auto. congruence.
  Qed.
  Lemma allm_mgrow s s' S : mgrow s s' -> allm s S -> allm s' S.
  Proof. intros M F a Ia. destruct (F a Ia) as [m Em]. apply (M _ _ Em). Qed.

  Lemma wprepare e i s S : env_ok e -> wst s -> nth_error nds i = Some S ->
    ook (fun _ s' => grow s s' /\ allm s' S /\ exists cl ts, nth_error (g_cl s') i = Some cl /\ cl_nodes cl = S /\ cl_topo cl = Some ts) (prepare H e i s).
  Proof.
    intros E W Hi. destruct (wget_cl s i S W Hi) as (cl & Eg & Hn & En).
    destruct (nds_facts H fs s0 C0 CS0 CL0 EV0 S (nth_error_In _ _ Hi)) as (SN & NE & SH & SC).
    pose proof (prepare_keeps H fs e i s E (wst_core s W) (wst_clus s W)) as KP.
    unfold prepare in *. rewrite Eg in *. cbn [lift obind] in *. destruct (cl_topo cl) as [ts|] eqn:Et.
    - eapply ook_imp; [apply (ofold_ook (fun a s => match nd_merged (g_node s a) with None => update_merged H e a s | Some _ => Ret tt s end)
        (fun done s' => grow s s' /\ g_cl s' = g_cl s /\ allm s' done) (e_ord e (gsize s) (cl_nodes cl)) s)|].
      + splits; auto. apply grow_refl; auto. intros a [].
      + intros done a rest s1 El (G1 & F1 & M1).
        assert (Ia : In a S). { rewrite <- En. apply (ord_In e (gsize s) (cl_nodes cl) a E). rewrite El. apply in_or_app; simpl; auto. }
        destruct (nd_merged (g_node s1 a)) as [m|] eqn:Em.
        * simpl. splits; auto. intros b I. apply in_app_iff in I as [I|[<-|[]]]; eauto.
        * destruct (SH a Ia) as [La Ea]. eapply ook_imp; [apply (wupdate_merged e a s1 E (gr_st _ _ G1) La Ea)|]. intros [] s2 (G2 & F2 & M2).
          splits. eapply grow_trans; eauto. congruence. intros b I. apply in_app_iff in I as [I|[<-|[]]]. 2: apply M2; simpl; auto.
          destruct (M1 b I) as [m Eb]. apply (gr_mg _ _ G2 _ _ Eb).
      + intros [] s' (G1 & F1 & M1). splits; auto.
        * intros a Ia. apply M1. apply ord_In; auto. rewrite En; auto.
        * rewrite F1. eauto.
    - unfold update_connectivity in *. rewrite Eg in *. cbn [lift obind] in *. rewrite En in *.
      pose proof (wtopo_loop e (e_ord e (gsize s) S) E ltac:(intros a Ia; apply ord_In in Ia; auto) [] s W) as Q.
      destruct (topo_loop H e (e_ord e (gsize s) S) [] s) as [ts s1|s1| | |]; cbn [obind ook] in *; auto.
      destruct Q as (G1 & F1 & M1). simpl in KP. split; [|split].
      + split.
        * split. eapply keeps_trans; [apply W|exact KP]. intros a b c m v. apply G1.
        * exact (gr_mg _ _ G1).
        * exact (gr_has _ _ G1).
        * exact (gr_pool _ _ G1).
      + intros a Ia. apply M1. apply ord_In; auto.
      + exists (mkCl S (Some ts)), ts. simpl. splits; auto. apply nth_error_lset_eq. rewrite F1. eapply nth_error_lt; eauto.
  Qed.

  Lemma wcluster e pool i s S k : env_ok e -> wst s -> nth_error nds i = Some S ->
    ook (fun _ s' => grow s s' /\ allm s' S /\ wfull S s')
      (do (_, s) <- prepare H e i s ;;
       do (cl, s) <- lift (get_cl s i) s ;;
       do (tree, s) <- message_passing H e pool k i s ;;
       if (tree : bool) then Ret (true, true, length (cl_nodes cl)) s
       else do (done, s) <- loopy_propagate H e pool k i s ;; Ret (false, done, length (cl_nodes cl)) s).
  Proof.
    intros E W Hi. destruct (nds_facts H fs s0 C0 CS0 CL0 EV0 S (nth_error_In _ _ Hi)) as (SN & NE & SH & SC).
    eapply ook_bind; [apply (wprepare e i s S E W Hi)|]. intros [] s1 (G1 & M1 & (cl & ts & Hn & En & Et)).
    assert (Eg : get_cl s1 i = Ok cl) by (unfold get_cl, vget; rewrite Hn; auto).
    rewrite Eg. cbn [lift obind]. pose proof (gr_st _ _ G1) as W1.
    assert (TO : topo_ok s0 S ts).
    { eapply topo_ok_ext; [|rewrite <- En; apply (cs_topo _ (wst_clus s1 W1)); eauto using nth_error_In]. intros a b _. symmetry. apply (keeps_uid H). apply W1. }
    unfold message_passing. rewrite Eg. cbn [lift obind]. rewrite Et.
    eapply ook_bind; [apply (wmp_loop S ts TO SC k e pool E (length ts) ts s1)|]; auto. { apply incl_refl. }
    intros b s2 [M2 B2]. pose proof (mup_grow _ _ M2) as G2. assert (AM2 : allm s2 S) by (eapply allm_mup; eauto).
    destruct b.
    - simpl. splits; auto. eapply grow_trans; eauto. eapply edges_full; eauto.
    - unfold loopy_propagate. pose proof (mu_fr _ _ M2) as (F1 & _).
      assert (Eg2 : get_cl s2 i = Ok cl) by (unfold get_cl, vget; rewrite F1, Hn; auto). rewrite Eg2. cbn [lift obind].
      apply (ook_bind (fun (_ : bool) s' => grow s s' /\ allm s' S /\ wfull S s')); [|intros done s4 Q1; exact Q1].
      eapply ook_bind; [apply (wset_ones S SC SH e cl s2 E (mu_st _ _ M2) En)|]. intros [] s3 [M3 F3]. rewrite Et.
      destruct (loopy_order_ok pool ts) as (bs & Eo & Po). rewrite Eo. cbn [lift obind].
      assert (AM3 : allm s3 S) by (eapply allm_mup; eauto).
      eapply ook_imp; [apply (wloopy_iter S ts TO SC k e pool bs E)|]; auto.
      { intros b Ib t It. eapply Permutation_in; [exact Po|]. apply in_concat. eauto. }
      { apply M3. }
      intros done s4 M4. cbv beta in M4. splits.
      + eapply grow_trans; [exact G1|]. eapply grow_trans; [exact G2|]. eapply grow_trans; apply mup_grow; eauto.
      + eapply allm_mup; eauto.
      + eapply wfull_mup; eauto.
  Qed.

  Lemma wprop_loop e pool k : env_ok e -> forall is, (forall i, In i is -> i < length nds) -> forall r s, wst s ->
    ook (fun _ s' => grow s s' /\ forall i S, In i is -> nth_error nds i = Some S -> allm s' S /\ wfull S s') (prop_loop H e pool k is r s).
  Proof.
    intros E. induction is as [|i is IH]; intros Lt r s W; cbn [prop_loop].
    - split. apply grow_refl; auto. intros i S [].
    - destruct (nth_error nds i) as [S|] eqn:Hi.
      2:{ apply nth_error_None in Hi. specialize (Lt i (or_introl eq_refl)). lia. }
      pose proof (wcluster e pool i s S k E W Hi) as Q.
      destruct (prepare H e i s) as [[] s2|s2| | |]; cbn [obind ook] in *; auto.
      destruct (lift (get_cl s2 i) s2) as [cl s3|s3| | |]; cbn [obind ook] in *; auto.
      destruct (message_passing H e pool k i s3) as [tr s4|s4| | |]; cbn [obind ook] in *; auto.
      assert (FIN : forall r1 s1, grow s s1 /\ allm s1 S /\ wfull S s1 ->
        ook (fun _ s' => grow s s' /\ forall j S, In j (i :: is) -> nth_error nds j = Some S -> allm s' S /\ wfull S s') (prop_loop H e pool k is r1 s1)).
      { intros r1 s1 (G1 & A1 & U1). eapply ook_imp; [apply IH|].
        - intros; apply Lt; simpl; auto.
        - apply G1.
        - intros r2 s5 (G5 & D5). split. eapply grow_trans; eauto. intros j S' [<-|J] Hj; eauto.
          rewrite Hi in Hj. injection Hj as <-. split. eapply allm_mgrow; eauto. apply G5. intros a b Ia A. apply (gr_has _ _ G5). auto. }
      destruct tr; cbn [ook] in Q; auto.
      destruct (loopy_propagate H e pool k i s4) as [dn s5|s5| | |]; cbn [obind ook] in *; auto.
  Qed.

  (** every hidden node has its merged factor, every connection between hidden
      nodes a message of the right shape *)
  Definition warm s : Prop := (forall a, a < gsize s -> g_ev s a = None -> nd_merged (g_node s a) <> None) /\
    forall a b c v, act s a b = Some c -> var_at s a v -> exists m, c_msg c = Some m /\ unary v m.

  Lemma wreset e s : env_ok e -> keeps H s0 s -> exists s', reset_messages e s = Ret tt s' /\ wst s' /\ g_pool s' = g_pool s.
  Proof.
    intros E K. destruct (reset_messages_ok H fs s0 C0 CS0 CL0 EV0 (fun _ => 0) e s E K) as (s1 & E1 & [K1 _] & (F1 & F2 & F3 & F4) & _ & NH).
    exists s1. splits; auto. split; auto. intros a b c m v Ec Em. exfalso. apply (NH a b). exists c, m. auto.
  Qed.

  Lemma wpropagate e k s pool : env_ok e -> keeps H s0 s -> would_need s k = true -> g_pool s = Some pool ->
    ook (fun _ s' => keeps H s0 s' /\ warm s' /\ g_pool s' = Some pool /\ exists r, g_last s' = Some r) (propagate H e k s).
  Proof.
    intros E K Wd P. unfold propagate. rewrite Wd, P. simpl negb. cbv iota.
    destruct (wreset e s E K) as (s1 & E1 & W1 & P1). rewrite E1. cbn [obind].
    assert (Ln : length (g_cl s1) = length nds). { rewrite <- (kp_cl _ _ _ (proj1 W1)), map_length. auto. }
    eapply ook_bind; [apply (wprop_loop e pool k E (seq 0 (length (g_cl s1))))|]; auto. { intros i I. apply in_seq in I. lia. }
    intros r s2 (G2 & D2). cbn [ook]. pose proof (gr_st _ _ G2) as W2. pose proof W2 as [K2 U2]. splits.
    - eapply keeps_trans; [exact K2|]. apply keeps_last.
    - assert (DA : forall a, a < gsize s0 -> g_ev s0 a = None -> exists S, allm s2 S /\ wfull S s2 /\ In a S).
      { intros a La Ea. destruct (nds_all s0 CS0 a La Ea) as (i & S & Hi & Ia). exists S. destruct (D2 i S) as [A F]; auto.
        apply in_seq. apply nth_error_lt in Hi. lia. }
      split.
      + intros a La Ea. change (a < gsize s2) in La. change (g_ev s2 a = None) in Ea. change (nd_merged (g_node s2 a) <> None). rewrite (kp_ev _ _ _ K2) in Ea. rewrite (keeps_size H s0 s2 K2) in La. destruct (DA a La Ea) as (S & A & _ & Ia).
        destruct (A a Ia) as [m Em]. congruence.
      + intros a b c v Ec Hv. change (act s2 a b = Some c) in Ec. change (var_at s2 a v) in Hv. apply (wst_var s2 _ _ W2) in Hv.
        assert (A : adj a b = true). { rewrite <- (keeps_adj H s0 s2) by auto. apply adjb_eact. exists c; auto. }
        rewrite (adj_sym H fs s0 C0) in A. destruct (adj_facts H fs s0 C0 CL0 EV0 b a A) as (_ & Lb & _ & Eb & _).
        destruct (DA b Lb Eb) as (S & _ & F & Ib). destruct (F b a Ib A) as (c' & m & Ec' & Em). exists m. assert (c' = c) by congruence. subst. split; auto. eapply U2; eauto.
    - simpl. rewrite (gr_pool _ _ G2). congruence.
    - simpl. eauto.
  Qed.
  End Run.

  (** {1 The queries on a state whose messages are there} *)
  Definition awake s : Prop := g_pool s = Some 1 /\ (g_last s <> None -> warm s).

  Lemma warm_ext s s' : g_vars s' = g_vars s -> g_node s' = g_node s -> g_ev s' = g_ev s -> warm s -> warm s'.
  Proof.
    intros E1 E2 E3 [W1 W2]. split.
    - intros a. unfold gsize. rewrite E1, E2, E3. apply W1.
    - intros a b c v. unfold act, var_at. rewrite E1, E2. apply W2.
  Qed.

  Lemma wcheck e k n s : inv H s -> clean s -> evened s -> awake s -> env_ok e -> 1 <= n ->
    ook (fun _ s' => keeps H s s' /\ awake s' /\ warm s') (check_propagation H e k n s).
  Proof.
    intros [C CS] CL EV [PO WA] E Ln. unfold check_propagation. destruct (would_need s k) eqn:Wd.
    - unfold scoped_pool, set_pool_size. rewrite PO.
      assert (G : forall s1 p, keeps H s s1 -> would_need s1 k = true -> g_pool s1 = Some p ->
        ook (fun _ s' => keeps H s s' /\ awake s' /\ warm s') (match propagate H e k s1 with Ret a s => Ret a (set_pool s (Some 1)) | Thr s => Thr (set_pool s (Some 1)) | Undef => Undef | NotNum => NotNum | NoStop => NoStop end)).
      { intros s1 p K1 W1 P1. pose proof (wpropagate (g_all s) s C CS CL EV e k s1 p E K1 W1 P1) as Q.
        destruct (propagate H e k s1) as [[] s2|s2| | |]; simpl in *; auto. destruct Q as (K2 & W2 & P2 & _).
        assert (W3 : warm (set_pool s2 (Some 1))) by (apply (warm_ext s2); auto).
        splits; auto. eapply keeps_trans; [exact K2|apply keeps_pool]. split; auto. }
      destruct (Nat.eqb_spec n 1) as [->|Nn]; [|destruct (Nat.eqb_spec n 0); [lia|]]; cbn [obind].
      + apply (G s 1); auto. apply keeps_refl.
      + apply (G (set_pool s (Some n)) n); auto. apply keeps_pool.
    - simpl. splits. apply keeps_refl. split; auto. apply WA. unfold would_need in Wd. destruct (g_last s); [discriminate|discriminate Wd].
  Qed.

  Section Warm.
    Variable s : gst.
    Hypothesis I : inv H s.
    Hypothesis WM : warm s.
    Let C : core s (g_all s) := proj1 I.

    Lemma warm_merged a : a < gsize s -> g_ev s a = None -> exists m v, nd_merged (g_node s a) = Some m /\ var_at s a v /\ unary v m.
    Proof.
      intros La Ea. destruct (nd_merged (g_node s a)) as [m|] eqn:Em; [|exfalso; eapply (proj1 WM); eauto].
      destruct (var_at_ex _ _ La) as (v & Hv). exists m, v. splits; auto.
      destruct (co_merged _ _ _ C a m Ea Em) as (e & He & Q). pose proof (merge_of_rok s (g_all s) e a v C He Ea Hv) as R. rewrite Q in R. exact R.
    Qed.
    Lemma incoming_rok e a v : env_ok e -> g_ev s a = None -> var_at s a v -> rok (unary v) (incoming e s a).
    Proof.
      intros E Ea Hv. assert (La : a < gsize s) by (eapply nth_error_lt; exact Hv).
      destruct (warm_merged a La Ea) as (m & v' & Em & Hv' & U). rewrite (var_at_fun _ _ _ _ Hv' Hv) in U. unfold incoming. rewrite Em.
      assert (G : exists l, map (fun b => match act s a b with Some c => c_msg c | None => None end) (e_ord e a (keys (gsize s) (nd_act (g_node s a)))) = map Some l /\ Forall (unary v) l).
      { assert (IK : forall b, In b (e_ord e a (keys (gsize s) (nd_act (g_node s a)))) -> exists c, act s a b = Some c).
        { intros b Ib. apply ord_In in Ib; auto. apply keys_In in Ib as (_ & c & Ec). exists c. exact Ec. }
        induction (e_ord e a (keys (gsize s) (nd_act (g_node s a)))) as [|b l IH]. exists []; auto.
        destruct IH as (l' & El & Fl). { intros; apply IK; simpl; auto. }
        destruct (IK b (or_introl eq_refl)) as (c & Ec). destruct (proj2 WM a b c v Ec Hv) as (mb & Emb & Ub).
        exists (mb :: l'). simpl. rewrite Ec, Emb, El. auto. }
      destruct G as (l & El & Fl). rewrite El. change (Some m :: map Some l) with (map Some (m :: l)). apply merged_unaries_rok; auto. discriminate.
    Qed.
    Lemma probabilities_rok v (f : func N) : unary v f -> rok (fun l => length l = vsize v) (get_probabilities f).
    Proof.
      intros U. destruct (get_probabilities_shape f (proj1 U)) as (l & -> & L). simpl. rewrite L, (unary_fsizes v f U).
      rewrite all_combs_1, map_length, seq_length. auto.
    Qed.
    Lemma probabilities_nu v (f : func N) : unary v f -> nu (fun l => l <> []) (get_probabilities f).
    Proof.
      intros U. pose proof (unary_pos v f U) as P. eapply nu_imp; [apply nu_rok, (probabilities_rok v f U)|]. intros [|x l]; simpl; [lia|discriminate].
    Qed.
    Lemma find_max_nu (l : list N) : l <> [] -> nu (fun _ => True) (find_max l).
    Proof. destruct l; simpl; auto. Qed.
    Lemma marginal_at_rok e v a l : env_ok e -> locate s v = Some (a, l) -> rok (fun p => length p = vsize v) (marginal_at e s a l).
    Proof.
      intros E L. destruct (locate_ok H s (g_all s) v a l C (proj2 I) L) as [F LO]. apply (find_node_spec s v a (co_vars _ _ _ C)) in F as (w & Hw & Ek).
      assert (ES : vsize w = vsize v) by (injection Ek; auto). rewrite <- ES.
      destruct l as [i|k]; simpl in *.
      - eapply rok_bind; [apply (incoming_rok e a w E (proj1 LO) Hw)|]. intros m U. apply (probabilities_rok w); auto.
      - unfold node_var, vget. unfold var_at in Hw. rewrite Hw. cbn [rbind]. destruct (co_ev _ _ _ C a k LO) as (w' & Hw' & Lk).
        unfold var_at in Hw'. assert (w' = w) by congruence. subst w'. unfold vset. rewrite repeat_length. destruct (Nat.ltb_spec k (vsize w)); [|lia].
        simpl. rewrite length_lset, repeat_length. auto.
    Qed.
    Lemma marginal_at_nu e v a l : env_ok e -> locate s v = Some (a, l) -> nu (fun p => p <> []) (marginal_at e s a l).
    Proof.
      intros E L. eapply nu_imp; [apply nu_rok, (marginal_at_rok e v a l E L)|]. intros [|x p]; [|discriminate]. simpl. intros Z.
      destruct (locate_ok H s (g_all s) v a l C (proj2 I) L) as [F LO]. apply (find_node_spec s v a (co_vars _ _ _ C)) in F as (w & Hw & Ek).
      assert (ES : vsize w = vsize v) by (injection Ek; auto).
      pose proof (co_made _ _ _ C) as M. rewrite Forall_forall in M. pose proof (made_pos w (M w (nth_error_In _ _ Hw))). lia.
    Qed.
    Lemma hidden_map_nu A e : abs s A -> env_ok e -> nu (fun _ => True) (rmap (fun v =>
        match find_node s v with
        | None => UB
        | Some a => let* m := incoming e s a in let* p := get_probabilities m in find_max p
        end) (hidden_variables e s)).
    Proof.
      intros AB E. eapply nu_imp; [apply (rmap_nu (fun _ => True))|auto]. intros v Iv.
      pose proof (hidden_vars_In H s A e v I AB E Iv) as Hv. destruct (hidden_node s A AB v Hv) as (a & Ha & Ih).
      rewrite (proj2 (find_node_spec s v a (co_vars _ _ _ C))) by eauto. apply hid_In in Ih as [_ Ea].
      eapply nu_bind; [apply nu_rok, (incoming_rok e a v E Ea Ha)|]. intros m U.
      eapply nu_bind; [apply (probabilities_nu v); auto|]. intros p NP. apply find_max_nu; auto.
    Qed.

    (** the contributions of a group *)
    Definition contrib_fine (ob : nat) (c : contrib) : Prop :=
      match c with
      | CMerged a => a < gsize s /\ g_ev s a = None
      | CMsg a b => exists c, act s a b = Some c
      | CFac _ => True
      | CInd k => k < ob
      end.
    Lemma cadd_fine ob l c : Forall (contrib_fine ob) l -> contrib_fine ob c -> Forall (contrib_fine ob) (cadd l c).
    Proof. intros F P. unfold cadd. destruct (existsb (contrib_eqb c) l); auto. apply Forall_app; auto. Qed.
    Lemma cadds_fine ob cs : Forall (contrib_fine ob) cs -> forall l, Forall (contrib_fine ob) l -> Forall (contrib_fine ob) (fold_left cadd cs l).
    Proof. induction 1; simpl; auto. intros l' Fl. apply IHForall. apply cadd_fine; auto. Qed.
    Definition located (al : nat * loc) : Prop := (exists v, var_at s (fst al) v) /\ loc_ok s (fst al) (snd al).
    Lemma contribs_nu e inside locs : env_ok e -> Forall located locs ->
      forall st, Forall (contrib_fine (length (snd st))) (fst st) -> Forall (fun p => g_ev s (fst p) = Some (snd p)) (snd st) ->
      nu (fun st' => Forall (contrib_fine (length (snd st'))) (fst st') /\ Forall (fun p => g_ev s (fst p) = Some (snd p)) (snd st') /\
        length (snd st') = length (snd st) + length (filter (fun al => match snd al with LEv _ => true | LCl _ => false end) locs))
        (rfold (contrib_step e s inside) locs st).
    Proof.
      intros E. induction 1 as [|[a l] locs [[v Hv] LO] FL IH]; intros st F1 F2.
      - simpl. splits; auto.
      - cbn [rfold]. destruct st as [cs inds]. simpl in F1, F2, Hv, LO.
        destruct l as [i|k]; cbn [contrib_step].
        + assert (La : a < gsize s) by (eapply nth_error_lt; exact Hv). destruct (warm_merged a La (proj1 LO)) as (m & _ & Em & _). rewrite Em.
          eapply nu_bind; [eapply nu_bind; [apply (rmap_nu (contrib_fine (length inds)))|]|].
          * intros b Ib. apply ord_In in Ib; auto. apply keys_In in Ib as (_ & c & Ec). unfold act. rewrite Ec. simpl.
            destruct (mem b inside); simpl; auto. exists c. exact Ec.
          * intros more FM. instantiate (1 := fun st' => Forall (contrib_fine (length (snd st'))) (fst st') /\ snd st' = inds). simpl. split; auto.
            apply (cadds_fine _ more FM). apply cadd_fine; simpl; auto. split; auto. apply LO.
          * intros [cs' inds'] [Fc Ei]. simpl in Fc, Ei. subst inds'. eapply nu_imp; [apply IH; auto|]. simpl. auto.
        + cbn [rbind]. eapply nu_imp; [apply IH|].
          * simpl. rewrite app_length. simpl. apply cadd_fine; [|simpl; lia]. eapply Forall_impl; [|exact F1]. intros [] ; simpl; auto. lia.
          * simpl. apply Forall_app; auto.
          * intros [cs' inds']. simpl. rewrite app_length. simpl. intros (Q1 & Q2 & Q3). splits; auto. lia.
    Qed.
    Lemma contrib_factor_nu inds c : length inds <= 1 -> Forall (fun p => g_ev s (fst p) = Some (snd p)) inds -> contrib_fine (length inds) c ->
      nu (fun f => wf_func f /\ NoDup (map vkey (f_vars f))) (contrib_factor H s inds c).
    Proof.
      intros L1 F Fc. assert (UN : forall v (f : func N), unary v f -> wf_func f /\ NoDup (map vkey (f_vars f))).
      { intros v f [W ->]. split; auto. simpl. constructor; auto. constructor. }
      destruct c as [a|a b|f|k]; simpl in *.
      - destruct (warm_merged a (proj1 Fc) (proj2 Fc)) as (m & v & Em & _ & U). rewrite Em. eapply UN; eauto.
      - destruct Fc as [c Ec]. rewrite Ec. assert (La : a < gsize s). { pose proof (co_act _ _ _ C _ _ _ Ec) as Lk. apply link_lt in Lk. tauto. }
        destruct (var_at_ex _ _ La) as (v & Hv). destruct (proj2 WM a b c v Ec Hv) as (m & Em & U). rewrite Em. eapply UN; eauto.
      - destruct (HG f) as ((W & (ND & _)) & _). auto.
      - unfold vget. destruct (nth_error inds k) as [[a o]|] eqn:Ek; [|apply nth_error_None in Ek; lia]. cbn [rbind].
        destruct (Nat.ltb_spec (k + 1) (length inds)); [lia|]. rewrite Forall_forall in F. pose proof (F _ (nth_error_In _ _ Ek)) as Eo. simpl in Eo.
        destruct (co_ev _ _ _ C a o Eo) as (v & Hv & Lo). unfold node_var, vget. unfold var_at in Hv. rewrite Hv. cbn [rbind].
        destruct (indicator_ok (N:=N) v o Lo) as (f & Ef & U & _). rewrite Ef. eapply UN; eauto.
    Qed.
    Lemma merge_nu ord fs : (forall l, Permutation (ord l) l) -> Forall (fun f : func N => wf_func f /\ NoDup (map vkey (f_vars f))) fs -> nu wf_factor (factor_merge ord fs).
    Proof.
      intros P F. destruct (classic_conflict (flat_map f_vars fs)) as [Cf|Cf]. rewrite (factor_merge_throw ord fs Cf); simpl; auto.
      destruct fs as [|f0 fs]. { assert (Z : ord [] = []) by (apply Permutation_nil; symmetry; apply P). unfold factor_merge, gather_variables. simpl. rewrite Z. simpl. auto. }
      destruct (factor_merge_solid ord (f0 :: fs) P ltac:(discriminate) F Cf) as (f & Ef & W & _). rewrite Ef. exact W.
    Qed.
    Lemma clone_nu (f : func N) g : wf_factor f -> wf_group g -> nu (fun _ => True) (clone_permuted f g).
    Proof.
      intros W WG. destruct (vset_eqb (g_set g) (g_set (f_group f))) eqn:Q.
      - assert (P : Permutation (g_soup g) (f_vars f)).
        { apply vset_eqb_perm in Q. rewrite (proj2 WG), (proj2 (proj2 W)) in Q. exact Q.
          - eapply Permutation_NoDup; [symmetry; apply Permutation_map; apply WG|apply WG].
          - eapply Permutation_NoDup; [symmetry; apply Permutation_map; apply W|apply W]. }
        destruct (clone_permuted_ok f g W WG P) as (f' & Ef & _). rewrite Ef. exact Logic.I.
      - unfold clone_permuted. rewrite Q. exact Logic.I.
    Qed.
    Definition at_evidence (al : nat * loc) : bool := match snd al with LEv _ => true | LCl _ => false end.
    Lemma locate_obs A v a k : abs s A -> locate s v = Some (a, LEv k) -> is_obs A v = true.
    Proof.
      intros AB L. destruct (locate_ok H s (g_all s) v a _ C (proj2 I) L) as [F LO]. apply (find_node_spec s v a (co_vars _ _ _ C)) in F as (w & Hw & Ek).
      simpl in LO. unfold is_obs, sp_evidence. change (vname v, vsize v) with (vkey v). rewrite <- Ek. rewrite <- (ab_ev _ _ AB a w Hw), LO. auto.
    Qed.
    Lemma locs_nu A vs : abs s A -> NoDup (map vkey vs) -> one_observed A vs ->
      nu (fun locs => Forall located locs /\ length (filter at_evidence locs) <= 1 /\ ((forall v, In v vs -> is_obs A v = false) -> filter at_evidence locs = []))
        (rmap (fun v => match locate s v with Some l => Ok l | None => Throw end) vs).
    Proof.
      intros AB. induction vs as [|v vs IH]; intros ND OO; cbn [rmap].
      - simpl. splits; auto.
      - destruct (locate s v) as [[a l]|] eqn:L; cbn [rbind nu]; auto. inversion ND as [|? ? NI ND']; subst.
        eapply nu_bind; [apply IH; auto; intros x y Ix Iy; apply OO; simpl; auto|]. intros locs (F & L1 & F0). cbn [nu].
        pose proof (locate_ok H s (g_all s) v a l C (proj2 I) L) as [Fn LO]. apply (find_node_spec s v a (co_vars _ _ _ C)) in Fn as (w & Hw & _).
        splits.
        + constructor; auto. split; eauto.
        + destruct l as [i|k]; simpl; auto. rewrite F0; auto. intros x Ix. destruct (is_obs A x) eqn:Ox; auto.
          exfalso. apply NI. rewrite (OO v x (or_introl eq_refl) (or_intror Ix) (locate_obs A v a k AB L) Ox). apply in_map; auto.
        + intros NO. destruct l as [i|k]; simpl. apply F0. intros; apply NO; simpl; auto.
          pose proof (locate_obs A v a k AB L) as Q. rewrite (NO v (or_introl eq_refl)) in Q. discriminate.
    Qed.
    Lemma joint_nu A e g : abs s A -> env_ok e -> wf_group g -> one_observed A (g_soup g) -> nu (fun _ => True) (joint_of H e s g).
    Proof.
      intros AB E WG OO. unfold joint_of. eapply nu_bind; [apply (locs_nu A (g_soup g) AB (proj1 WG) OO)|]. intros locs (F & L1 & _).
      eapply nu_bind; [apply (contribs_nu e (map fst locs) locs E F ([], [])); constructor|]. intros [cs inds] (F1 & F2 & L2). simpl in F1, F2, L2.
      fold at_evidence in L2. assert (L3 : length inds <= 1) by (rewrite L2; exact L1).
      assert (P : forall B (l : list B), Permutation (permute (e_ord e (gsize s)) l) l) by (intros; apply permute_perm; intros l'; apply E).
      eapply nu_bind; [apply rmap_nu|].
      - intros c Ic. apply (Permutation_in _ (P _ cs)) in Ic. rewrite Forall_forall in F1. apply contrib_factor_nu; auto.
      - intros fs Ffs. eapply nu_bind; [apply merge_nu; auto|]. intros f Wf. apply clone_nu; auto.
    Qed.
  End Warm.

  (** {1 The calls} *)
  Notation safe_use := (safe_use H).

  Lemma query_defined A e op s n : inv H s -> abs s A -> clean s -> awake s -> env_ok e -> query_threads op = Some n -> 1 <= n -> balanced H A -> safe_group A op ->
    defined (call H e op s).
  Proof.
    intros I AB CL AW E Q Ln B SG. pose proof (balanced_evened H s A (proj1 I) AB CL B) as EV.
    assert (CK : forall k, ook (fun _ s' => inv H s' /\ abs s' A /\ warm s') (check_propagation H e k n s)).
    { intros k. eapply ook_imp; [apply (wcheck e k n s I CL EV AW E Ln)|]. intros [] s' (K & _ & W). splits; auto. eapply keeps_inv; eauto. eapply keeps_abs; eauto. }
    assert (MQ : forall k v (R : list N -> gst -> out gst answer), (forall p s', p <> [] -> defined (R p s')) -> defined (do (p, s') <- marginal_query H e k v n s ;; R p s')).
    { intros k v R HR. unfold marginal_query. specialize (CK k). destruct (check_propagation H e k n s) as [[] s1|s1| | |]; cbn [obind defined] in *; auto.
      destruct CK as (I1 & AB1 & W1). destruct (locate s1 v) as [[a l]|] eqn:L; cbn [obind defined]; auto.
      pose proof (marginal_at_nu s1 I1 W1 e v a l E L) as Z. destruct (marginal_at e s1 a l) as [p| | | |]; cbn [lift obind defined nu] in *; auto. }
    assert (JQ : forall g (R : func N -> gst -> out gst answer), wf_group g -> one_observed A (g_soup g) -> (forall p s', defined (R p s')) -> defined (do (p, s') <- get_joint H e g n s ;; R p s')).
    { intros g R WG OO HR. rewrite get_joint_eq. specialize (CK SUM). destruct (check_propagation H e SUM n s) as [[] s1|s1| | |]; cbn [obind defined] in *; auto.
      destruct CK as (I1 & AB1 & W1). pose proof (joint_nu s1 I1 W1 A e g AB1 E WG OO) as Z. destruct (joint_of H e s1 g) as [p| | | |]; cbn [lift obind defined nu] in *; auto. }
    assert (FM : forall p (s' : gst) (f : nat -> answer), p <> [] -> defined (do (k, s') <- lift (find_max (N:=N) p) s' ;; Ret (f k) s')).
    { intros [|x p] s' f NP; simpl; auto. }
    assert (FV : forall nm (R : var -> gst -> out gst answer), (forall v, defined (R v s)) -> defined (do (v, s) <- lift (find_variable s nm) s ;; R v s)).
    { intros nm R HR. rewrite (sp_named_spec s A nm AB). destruct (sp_named A nm); simpl; auto. }
    assert (AS : forall {B D F} (o : out gst B) (f : B -> gst -> out gst D) (h : D -> gst -> out gst F), obind (obind o f) h = obind o (fun b s => obind (f b s) h)).
    { intros ? ? ? [] f h; reflexivity. }
    destruct op; try discriminate Q; injection Q as ->; cbn [call]; unfold omap.
    - apply MQ. simpl; auto.
    - unfold get_marginal_name. rewrite AS. apply FV. intros v. apply MQ. simpl; auto.
    - unfold get_map. rewrite AS. apply MQ. intros p s' NP. apply FM; auto.
    - unfold get_map_name, get_map. rewrite AS. apply FV. intros v. rewrite AS. apply MQ. intros p s' NP. apply FM; auto.
    - unfold get_hidden_map. rewrite AS. eapply defined_bind; [apply CK|]. intros [] s1 (I1 & AB1 & W1).
      pose proof (hidden_map_nu s1 I1 W1 A e AB1 E) as Z. destruct (rmap _ (hidden_variables e s1)); simpl in *; auto.
    - destruct SG as [WG OO]. apply JQ; auto. simpl; auto.
    - rename ns into names. unfold get_joint_names. rewrite AS. rewrite (sp_names_spec s A names AB). destruct (sp_names A names) as [vs|] eqn:Nm; [|simpl; auto]. cbn [lift obind].
      rewrite AS. destruct (group_ctor vs) as [g| | | |] eqn:Eg; cbn [lift obind defined]; auto.
      + apply JQ; simpl; auto. eapply group_ctor_wf; eauto. apply group_ctor_ok in Eg as (_ & _ & ->). simpl. apply SG; auto.
      + unfold group_ctor in Eg. destruct (length vs =? 0); [discriminate|]. destruct (length vs =? _); discriminate.
      + unfold group_ctor in Eg. destruct (length vs =? 0); [discriminate|]. destruct (length vs =? _); discriminate.
    - set (k := if sum then SUM else MAP). specialize (CK k). unfold check_propagation in CK. destruct (would_need s k) eqn:Wd.
      + destruct (scoped_pool n (propagate H e k) s); simpl in *; auto.
      + rewrite (scoped_idle H e k n s Wd (proj1 AW) Ln). simpl. auto.
  Qed.

  (** a query about a variable of the model has no exception *)
  Lemma known_marginal A e k v n s : inv H s -> abs s A -> clean s -> awake s -> env_ok e -> 1 <= n -> balanced H A -> In (vkey v) (map vkey (sp_vars A)) ->
    ook (fun p _ => length p = vsize v) (marginal_query H e k v n s).
  Proof.
    intros I AB CL AW E Ln B KN. pose proof (balanced_evened H s A (proj1 I) AB CL B) as EV. unfold marginal_query.
    eapply ook_bind; [apply (wcheck e k n s I CL EV AW E Ln)|]. intros [] s1 (K & _ & W).
    assert (I1 : inv H s1) by (eapply keeps_inv; eauto). destruct (locate s1 v) as [[a l]|] eqn:L.
    - eapply ook_imp; [apply ook_lift, (marginal_at_rok s1 I1 W e v a l E L)|]. intros p s2 [Q _]. exact Q.
    - exfalso. apply locate_find, find_node_none in L. apply L. rewrite (kp_vars _ _ _ K), (ab_vars _ _ AB). exact KN.
  Qed.

  Theorem call_defined A e op s : inv H s -> abs s A -> clean s -> awake s -> env_ok e -> safe_use A op ->
    call H e op s <> Undef /\ (call H e op s = NotNum -> stops N).
  Proof.
    intros I AB CL AW E (G1 & G2 & G3 & G4). destruct (query_threads op) as [n|] eqn:Q.
    - destruct (G3 n Q) as [Ln B]. pose proof (query_defined A e op s n I AB CL AW E Q Ln B G4) as D. split; intros Z; rewrite Z in D; exact D.
    - pose proof (call_refines H HG s A e op I AB E G1) as CR. destruct (sp_step (fvars H) A op) as [[t A']|] eqn:SS.
      + destruct CR as (s' & Z & _). rewrite Z. simpl. split; [|intros Z']; destruct t; discriminate.
      + destruct op; try discriminate Q; try discriminate SS; try discriminate; exfalso; revert SS; simpl;
          repeat match goal with |- context [match ?x with _ => _ end] => destruct x end; discriminate.
  Qed.

  Theorem call_awake A e op s s' : inv H s -> abs s A -> clean s -> awake s -> env_ok e -> safe_use A op -> ends (call H e op s) s' -> awake s'.
  Proof.
    intros I AB CL AW E (G1 & G2 & G3 & G4) EN. destruct (query_threads op) as [n|] eqn:Qt.
    - destruct (G3 n Qt) as [Ln B]. pose proof (balanced_evened H s A (proj1 I) AB CL B) as EV.
      assert (CK : forall k s1, check_propagation H e k n s <> Thr s1).
      { intros k s1 Z. pose proof (wcheck e k n s I CL EV AW E Ln) as Q. rewrite Z in Q. exact Q. }
      assert (CC : forall k s', check_propagation H e k n s = Ret tt s' -> awake s').
      { intros k s1 Z. pose proof (wcheck e k n s I CL EV AW E Ln) as Q. rewrite Z in Q. apply Q. }
      destruct op; try discriminate Qt; try (destruct (query_state H e _ s n s' Qt ltac:(intros; discriminate) CK EN) as [->|[kd Q]]; [auto|eapply CC; eauto]).
      simpl in Qt. injection Qt as ->. simpl in EN. apply ends_omap in EN. set (kk := if sum then SUM else MAP) in *.
      specialize (CK kk). specialize (CC kk). unfold check_propagation in CK, CC. destruct (would_need s kk) eqn:Wd.
      + destruct EN as [EN|[[] EN]]; [exfalso; eapply CK; eauto|]. apply CC; auto.
      + rewrite (scoped_idle H e kk n s Wd (proj1 AW) Ln) in EN. destruct EN as [EN|[b EN]]; try discriminate. injection EN; intros; subst; auto.
    - assert (DI : (exists n, op = OIters n) \/ forall n, op <> OIters n) by (destruct op; eauto; right; discriminate).
      destruct AW as [PO WA]. destruct DI as [[n ->]|NI].
      + simpl in EN. destruct EN as [EN|[a EN]]; try discriminate. injection EN; intros; subst. split; auto.
      + destruct (call_forgets H HG e op s s' I E Qt NI EN) as [F PO'].
        destruct F as [F|[->|[e' ->]]]; split; simpl in *; auto; try congruence; intros L; apply (warm_ext s); auto.
  Qed.

  Theorem reach_awake ops s : reach H safe_use ops s -> awake s.
  Proof.
    intros R.
    assert (G1 : forall A op, safe_use A op -> no_failed_removal A op) by (intros A op (G & _); auto).
    assert (G2 : forall A op, safe_use A op -> no_failed_removal A op /\ separated_removal (fvars H) A op) by (intros A op (G & G' & _); auto).
    induction R as [|ops s e op a s' R CA Gop E Q|ops s e op s' R CA Gop E Q].
    - split; auto. intros L. exfalso. apply L. reflexivity.
    - destruct (reach_abs H HG _ ops s G1 R) as [I AB]. pose proof (reach_clean H HG _ ops s G2 R) as CL.
      eapply call_awake; eauto. right. eauto.
    - destruct (reach_abs H HG _ ops s G1 R) as [I AB]. pose proof (reach_clean H HG _ ops s G2 R) as CL.
      eapply call_awake; eauto. left. auto.
  Qed.

  Theorem reach_defined ops s e op : reach H safe_use ops s -> env_ok e -> safe_use (sp_run (fvars H) ops) op ->
    call H e op s <> Undef /\ (call H e op s = NotNum -> stops N).
  Proof.
    intros R E G.
    assert (G1 : forall A op, safe_use A op -> no_failed_removal A op) by (intros A o (Q & _); auto).
    assert (G2 : forall A op, safe_use A op -> no_failed_removal A op /\ separated_removal (fvars H) A op) by (intros A o (Q & Q' & _); auto).
    destruct (reach_abs H HG _ ops s G1 R) as [I AB]. pose proof (reach_clean H HG _ ops s G2 R) as CL.
    eapply call_defined; eauto. eapply reach_awake; eauto.
  Qed.
End Safe.
