(** Preservation of the invariants by the methods that set and remove evidences *)
From Coq Require Import String List Arith Bool Lia Permutation Relations.
From Verif Require Import Res Num Categoric Func FuncProofs GroupProofs FactorProofs FactorApi Special SpecialProofs
  Graph GraphLemmas Clusters Belief GraphInv.
Import ListNotations.
Open Scope nat_scope.

Lemma linked_within (A : nat -> nat -> Prop) dom c x y :
  (forall x y, In x c -> A x y -> In y dom -> In y c) ->
  linked A (fun z => In z dom) x y -> In x c -> linked A (fun z => In z c) x y /\ In y c.
Proof.
  intros CL L. induction L as [x y (H1 & H2 & H3)| |x y z L1 IH1 L2 IH2]; intros Hx.
  - assert (In y c) by eauto. split; auto. apply rt_step. auto.
  - split; auto. apply rt_refl.
  - destruct (IH1 Hx) as [A1 Hy]. destruct (IH2 Hy) as [A2 Hz]. split; auto. eapply rt_trans; eauto.
Qed.

Lemma Forall2_imp {A B} (P Q : A -> B -> Prop) l l' : (forall x y, P x y -> Q x y) -> Forall2 P l l' -> Forall2 Q l l'.
Proof. intros I F. induction F; constructor; auto. Qed.

(** a node is taken out of its component *)
Lemma components_remove (A B : nat -> nat -> Prop) a dom c others new :
  (forall x y, B x y <-> A x y /\ x <> a /\ y <> a) -> NoDup dom ->
  components A dom (c :: others) -> In a c ->
  components B (filter (fun k => negb (k =? a)) c) new ->
  components B (filter (fun k => negb (k =? a)) dom) (others ++ new).
Proof.
  intros E ND [P1 P2 P3 P4] Ha [Q1 Q2 Q3 Q4]. simpl in P1.
  assert (NDc : NoDup (c ++ concat others)) by (eapply perm_NoDup; [exact P1|auto]).
  assert (NO : forall c', In c' others -> ~ In a c').
  { intros c' Hc' I. eapply (NoDup_app_disj _ _ NDc a); auto. apply in_concat. eauto. }
  assert (FI : forall l k, In k (filter (fun k => negb (k =? a)) l) <-> In k l /\ k <> a).
  { intros l k. rewrite filter_In, negb_true_iff, Nat.eqb_neq. tauto. }
  constructor.
  - rewrite concat_app, Q1.
    assert (PF : forall l l' : list nat, Permutation l l' -> Permutation (filter (fun k => negb (k =? a)) l) (filter (fun k => negb (k =? a)) l')).
    { clear. intros l l' P. induction P; simpl; auto.
      - destruct (negb _); auto.
      - destruct (negb (y =? a)), (negb (x =? a)); auto. constructor.
      - etransitivity; eauto. }
    rewrite <- (PF _ _ P1), filter_app.
    rewrite (Permutation_app_comm (concat others)). apply Permutation_app_head.
    assert (F : filter (fun k => negb (k =? a)) (concat others) = concat others).
    { assert (NA : ~ In a (concat others)). { intros I. eapply (NoDup_app_disj _ _ NDc a); auto. }
      clear - NA. induction (concat others) as [|x l IH]; simpl; auto. simpl in NA.
      destruct (Nat.eqb_spec x a); simpl. exfalso; auto. rewrite IH; auto. }
    rewrite F. reflexivity.
  - intros c' I. apply in_app_iff in I as [I|I]; auto. apply P2. simpl; auto.
  - intros c' x y I Hx HB Hy. apply E in HB as (HA & N1 & N2). apply FI in Hy as [Hy _].
    apply in_app_iff in I as [I|I].
    + eapply P3; eauto. simpl; auto.
    + assert (Hxc : In x c). { assert (K : In x (filter (fun k => negb (k =? a)) c)) by (rewrite <- Q1; apply in_concat; eauto). apply FI in K. tauto. }
      assert (Hyc : In y c) by (eapply P3; eauto; simpl; auto).
      apply (Q3 c' x y); auto. apply E; auto. apply FI; auto.
  - intros c' x y I Hx Hy. apply in_app_iff in I as [I|I].
    + assert (L : linked A (fun z => In z dom) x y) by (apply (P4 c'); simpl; auto).
      eapply linked_within in L as [L _]; [|intros u v Hu HA Hv; eapply (P3 c'); eauto; simpl; auto|auto].
      eapply linked_mono; [| |exact L].
      * intros u v Hu Hv HA. apply E. splits; auto; intros ->; eapply NO; eauto.
      * intros u Hu. apply FI. split. rewrite <- P1. apply in_app_iff. right. apply in_concat; eauto.
        intros ->. eapply NO; eauto.
    + eapply linked_mono; [| |apply (Q4 c'); eauto]; auto.
      intros u Hu. apply FI in Hu as [Hu N1]. apply FI. split; auto. rewrite <- P1. apply in_app_iff; auto.
Qed.

Section Evid.
  Context {N : num} (OK : num_ok N).
  Variable H : nat -> func N.
  Hypothesis HG : solids H.
  Notation gst := (gst (N:=N)).
  Implicit Types s : gst.
  Notation core := (core H).
  Notation link := (link H).

  (** {1 [add_distribution]} *)
  Inductive add_outcome s : option nat -> out gst unit -> Prop :=
  | AO_null : add_outcome s None (Thr s)
  | AO_again f : In f (g_all s) -> add_outcome s (Some f) (Thr s)
  | AO_arity f s' : ~ In f (g_all s) -> length (fvars H f) <> 1 -> length (fvars H f) <> 2 -> s' = reset_belief s ->
      add_outcome s (Some f) (Thr s')
  | AO_conflict f v r s' : ~ In f (g_all s) -> fvars H f = v :: r -> length r <= 1 -> conflict s v -> s' = reset_belief s ->
      add_outcome s (Some f) (Thr s')
  | AO_conflict2 f va vb s' : ~ In f (g_all s) -> fvars H f = [va; vb] -> ~ conflict s va -> conflict s vb ->
      inv H s' -> g_vars s' = vset_add (g_vars s) va -> g_ev s' = g_ev s -> g_all s' = g_all s -> g_last s' = None ->
      (clean s -> clean s') -> add_outcome s (Some f) (Thr s')
  | AO_joined f va vb s' : ~ In f (g_all s) -> fvars H f = [va; vb] -> ~ conflict s va -> ~ conflict s vb -> joined H (g_all s) va vb ->
      inv H s' -> g_vars s' = g_vars s -> g_ev s' = g_ev s -> g_all s' = g_all s -> g_last s' = None ->
      (clean s -> clean s') -> add_outcome s (Some f) (Thr s')
  | AO_unary f v s' : ~ In f (g_all s) -> fvars H f = [v] -> ~ conflict s v ->
      inv H s' -> g_vars s' = vset_add (g_vars s) v -> g_ev s' = g_ev s -> g_all s' = g_all s ++ [f] -> g_last s' = None ->
      (clean s -> clean s') -> add_outcome s (Some f) (Ret tt s')
  | AO_binary f va vb s' : ~ In f (g_all s) -> fvars H f = [va; vb] -> ~ conflict s va -> ~ conflict s vb -> ~ joined H (g_all s) va vb ->
      inv H s' -> g_vars s' = vset_add (vset_add (g_vars s) va) vb -> g_ev s' = g_ev s -> g_all s' = g_all s ++ [f] -> g_last s' = None ->
      (clean s -> clean s') -> add_outcome s (Some f) (Ret tt s').

  Lemma core_same s s' fs : g_vars s' = g_vars s -> g_node s' = g_node s -> g_ev s' = g_ev s -> core s fs -> core s' fs.
  Proof.
    destruct s, s'; simpl. intros -> -> -> C. destruct C. constructor; auto.
  Qed.
  Lemma clus_same s s' : g_vars s' = g_vars s -> g_node s' = g_node s -> g_ev s' = g_ev s -> g_cl s' = g_cl s -> clus s -> clus s'.
  Proof.
    intros E1 E2 E3 E4. apply clus_ext; auto. apply hid_ext; auto. unfold gsize; rewrite E1; auto.
    intros x y. unfold act. rewrite E2. auto.
  Qed.

  Lemma joined_known s fs va vb : core s fs -> joined H fs va vb -> In (vkey va) (map vkey (g_vars s)) /\ In (vkey vb) (map vkey (g_vars s)).
  Proof.
    intros C (g & I & E). destruct (co_fac _ _ _ C g I) as [(w & x & E' & _)|(wa & wb & x & y & c & E' & Hx & Hy & _)].
    - rewrite E' in E. destruct E; discriminate.
    - apply nth_error_In in Hx, Hy. rewrite E' in E. destruct E as [E|E]; injection E as -> ->; split; apply in_map; auto.
  Qed.

  Lemma add_distribution_ok s d : inv H s -> add_outcome s d (add_distribution H s d).
  Proof.
    intros [C CS]. destruct d as [f|]; [|constructor]. unfold add_distribution.
    destruct (mem f (g_all s)) eqn:M. { apply mem_In in M. constructor; auto. }
    apply mem_false in M. set (s0 := reset_belief s).
    assert (C0 : core s0 (g_all s)) by (eapply core_same; [| | |exact C]; auto).
    assert (CS0 : clus s0) by (eapply clus_same; [| | | |exact CS]; auto).
    assert (CL0 : clean s -> clean s0) by (intros CL; exact CL).
    destruct (fvars H f) as [|va [|vb [|vc r]]] eqn:Ef; simpl length; cbv iota.
    - cbn [obind]. eapply AO_arity; auto; rewrite Ef; simpl; auto.
    - destruct (add_unary_ok H HG s0 (g_all s) f va C0 CS0 Ef M) as [[Q ->]|(Q & s' & -> & C' & CS' & E1 & E2 & E3 & E4 & E5)].
      + cbn [obind]. eapply AO_conflict; eauto.
      + cbn [obind]. eapply AO_unary; eauto; simpl; try congruence. 2:rewrite E3; auto.
        split.
        * simpl. rewrite E3. eapply core_same; [| | |exact C']; auto.
        * eapply clus_same; [| | | |exact CS']; auto.
    - destruct (add_binary_ok H HG s0 (g_all s) f va vb C0 CS0 Ef M)
        as [[Q ->]|(Q & s1 & C1 & CS1 & E1 & E2 & E3 & E4 & E5 & [[Q2 ->]|(Q2 & s' & R1 & R2 & R3 & R4 & R5 & CS' & [(J & C' & ->)|(J & C' & ->)])])].
      + cbn [obind]. eapply AO_conflict; eauto.
      + cbn [obind]. eapply AO_conflict2; eauto. split; auto. rewrite E3. auto.
      + cbn [obind]. destruct (joined_known s (g_all s) va vb C J) as [J1 J2].
        eapply AO_joined; eauto. split; auto. rewrite R3; auto.
        rewrite R1. rewrite (vset_add_old (g_vars s0) va) by auto. apply vset_add_old; auto.
      + cbn [obind]. eapply AO_binary; eauto; simpl; try congruence. 2:rewrite R3; auto.
        split.
        * simpl. rewrite R3. eapply core_same; [| | |exact C']; auto.
        * eapply clus_same; [| | | |exact CS']; auto.
    - cbn [obind]. eapply AO_arity; auto; rewrite Ef; simpl; auto.
  Qed.

  (** {1 Loops on the connections of a node} *)
  Definition touches (x y a : nat) : bool := (x =? a) || (y =? a).
  Lemma touches_true x y a : touches x y a = true <-> x = a \/ y = a.
  Proof. unfold touches. rewrite orb_true_iff, !Nat.eqb_eq. tauto. Qed.
  Lemma touches_false x y a : touches x y a = false <-> x <> a /\ y <> a.
  Proof. unfold touches. rewrite orb_false_iff, !Nat.eqb_neq. tauto. Qed.
  Lemma touches_sym x y a : touches x y a = touches y x a.
  Proof. unfold touches. apply orb_comm. Qed.

  (** the connection [x]-[y] is the one of [a] with an element of [l] *)
  Definition among (x y a : nat) (l : list nat) : bool := ((x =? a) && mem y l) || ((y =? a) && mem x l).
  Lemma among_true x y a l : among x y a l = true <-> (x = a /\ In y l) \/ (y = a /\ In x l).
  Proof. unfold among. rewrite orb_true_iff, !andb_true_iff, !Nat.eqb_eq, !mem_In. tauto. Qed.

  (** all the active connections of [a] are disabled *)
  Lemma cut_loop s fs a e : core s fs -> env_ok e ->
    exists s', ofold (fun b s => disable_known s a b) (e_ord e a (keys (gsize s) (nd_act (g_node s a)))) s = Ret tt s' /\
      same_frame s s' /\ same_merged s s' /\
      (forall x y, act s' x y = if touches x y a then None else act s x y) /\
      (forall x y, touches x y a = false -> dis s' x y = dis s x y) /\
      (forall x y, touches x y a = true -> match act s x y with
                                           | Some c => exists c', dis s' x y = Some c' /\ c_fac c' = c_fac c
                                           | None => dis s' x y = dis s x y end).
  Proof.
    intros C E. set (l := e_ord e a (keys (gsize s) (nd_act (g_node s a)))).
    assert (LI : forall b, In b l <-> exists c, act s a b = Some c).
    { intros b. unfold l. rewrite ord_In, keys_In by auto. unfold act. split. intros [_ Q]; auto.
      intros [c Q]. split; eauto. apply (co_act _ _ _ C) in Q. apply link_lt in Q. tauto. }
    assert (ND : NoDup l) by (apply ord_NoDup, keys_NoDup; auto).
    destruct (ofold_inv (fun b s => disable_known s a b) (fun done s' =>
       same_frame s s' /\ same_merged s s' /\
       (forall x y, among x y a done = false -> act s' x y = act s x y /\ dis s' x y = dis s x y) /\
       (forall x y, among x y a done = true -> act s' x y = None /\ match act s x y with
                                           | Some c => exists c', dis s' x y = Some c' /\ c_fac c' = c_fac c
                                           | None => False end)) l s) as (s' & Es & F & M & U & T).
    - splits; auto. apply same_frame_refl. intros k; auto. intros x y A. apply among_true in A as [[_ []]|[_ []]].
    - intros done b rest s1 El (F & M & U & T).
      assert (Hb : In b l) by (rewrite El; apply in_app_iff; simpl; auto).
      assert (Nb : ~ In b done) by (rewrite El in ND; apply NoDup_split_mid in ND; tauto).
      assert (Nab : a <> b). { apply LI in Hb as [c Q]. apply (co_act _ _ _ C) in Q. apply Q. }
      assert (Na : ~ In a done).
      { intros I. assert (In a l) by (rewrite El; apply in_app_iff; auto). apply LI in H0 as [c Q]. apply (co_act _ _ _ C) in Q. apply Q; auto. }
      destruct (proj1 (LI b) Hb) as [c Q].
      assert (Q1 : act s1 a b = Some c).
      { rewrite (proj1 (U a b ltac:(destruct (among a b a done) eqn:Z; auto; apply among_true in Z as [[_ Z]|[Z _]]; [contradiction|congruence]))). auto. }
      unfold disable_known. rewrite Q1. eexists. split; [reflexivity|].
      destruct (disable_frame s1 a b (c_fac c)) as [F2 M2].
      assert (AM : forall x y, among x y a (done ++ [b]) = among x y a done || pair_is x y a b).
      { intros x y. apply eq_true_iff_eq. rewrite orb_true_iff, !among_true, pair_is_true, !in_app_iff. simpl. intuition subst; auto. }
      splits.
      + eapply same_frame_trans; eauto.
      + intros k. rewrite M2. apply M.
      + intros x y A. rewrite AM in A. apply orb_false_iff in A as [A1 A2].
        rewrite disable_act, disable_dis, A2 by auto. apply U; auto.
      + intros x y A. rewrite AM in A. rewrite disable_act by auto. destruct (pair_is x y a b) eqn:P.
        * split; auto. destruct (disable_dis_pair s1 a b (c_fac c) x y Nab P) as (c' & Hc' & Ec' & _).
          apply pair_is_true in P as [[-> ->]|[-> ->]].
          -- rewrite Q. eauto.
          -- destruct (co_act_sym _ _ _ C a b c Q) as (c2 & -> & E2). exists c'. split; auto. congruence.
        * rewrite orb_false_r in A. rewrite disable_dis, P by auto. apply T; auto.
    - exists s'. splits; auto.
      + intros x y. destruct (touches x y a) eqn:TT.
        * destruct (among x y a l) eqn:A; [apply T; auto|]. rewrite (proj1 (U x y A)).
          destruct (act s x y) as [c|] eqn:Q; auto. exfalso.
          assert (Z : among x y a l = true); [|congruence]. apply among_true. apply touches_true in TT as [->| ->].
          -- left. split; auto. apply LI; eauto.
          -- right. split; auto. apply LI. destruct (co_act_sym _ _ _ C _ _ _ Q) as (c' & Q' & _). eauto.
        * apply U. destruct (among x y a l) eqn:A; auto. apply touches_false in TT. apply among_true in A as [[? _]|[? _]]; tauto.
      + intros x y TT. apply U. destruct (among x y a l) eqn:A; auto. apply touches_false in TT. apply among_true in A as [[? _]|[? _]]; tauto.
      + intros x y TT. destruct (among x y a l) eqn:A; [apply T in A as [_ A]; destruct (act s x y); tauto|].
        destruct (act s x y) as [c|] eqn:Q; [|apply U; auto]. exfalso.
        assert (Z : among x y a l = true); [|congruence]. apply among_true. apply touches_true in TT as [->| ->].
        -- left. split; auto. apply LI; eauto.
        -- right. split; auto. apply LI. destruct (co_act_sym _ _ _ C _ _ _ Q) as (c' & Q' & _). eauto.
  Qed.

  (** the evidence of [a] is sent through its disabled connections *)
  Lemma send_loop s a e w value :
    env_ok e -> var_at s a w -> value < vsize w ->
    (forall x c, dis s a x = Some c -> x < gsize s) ->
    (forall x c, dis s a x = Some c -> exists c', dis s x a = Some c' /\ c_fac c' = c_fac c) ->
    (forall x c, dis s x a = Some c -> x <> a /\ (exists c', dis s a x = Some c') /\
       exists m, evidence_factor (H (c_fac c)) w value = Ok m) ->
    exists s', send_evidence H e a value s = Ret tt s' /\ same_frame s s' /\
      (forall x y, act s' x y = act s x y) /\
      (forall x y, y <> a -> dis s' x y = dis s x y) /\
      (forall x, dis s x a = None -> dis s' x a = None /\ nd_merged (g_node s' x) = nd_merged (g_node s x)) /\
      (forall x c, dis s x a = Some c -> nd_merged (g_node s' x) = None /\
         exists m, dis s' x a = Some (with_msg c (Some m)) /\ evidence_factor (H (c_fac c)) w value = Ok m).
  Proof.
    intros E Hw Hv LT SY DS. unfold send_evidence, node_var, vget. rewrite Hw. cbn [lift obind].
    set (l := e_ord e a (keys (gsize s) (nd_dis (g_node s a)))).
    assert (LI : forall b, In b l <-> exists c, dis s b a = Some c).
    { intros b. unfold l. rewrite ord_In, keys_In by auto. split.
      - intros (_ & c & Q). apply SY in Q as (c' & Q & _). eauto.
      - intros (c & Q). apply DS in Q as (_ & (c' & Q) & _). split; eauto. }
    assert (ND : NoDup l) by (apply ord_NoDup, keys_NoDup; auto).
    match goal with |- context [ofold ?g l s] =>
    destruct (ofold_inv g (fun done s' =>
       same_frame s s' /\ (forall x y, act s' x y = act s x y) /\
       (forall x y, y <> a -> dis s' x y = dis s x y) /\
       (forall x, ~ In x done -> dis s' x a = dis s x a /\ nd_merged (g_node s' x) = nd_merged (g_node s x)) /\
       (forall x, In x done -> nd_merged (g_node s' x) = None /\ exists c m, dis s x a = Some c /\
         dis s' x a = Some (with_msg c (Some m)) /\ evidence_factor (H (c_fac c)) w value = Ok m)) l s) as (s' & Es & F & A & U & T & I)
    end.
    - splits; auto. apply same_frame_refl. intros x [].
    - intros done b rest s1 El (F & A & U & T & I).
      assert (Hb : In b l) by (rewrite El; apply in_app_iff; simpl; auto).
      assert (Nb : ~ In b done) by (rewrite El in ND; apply NoDup_split_mid in ND; tauto).
      apply LI in Hb as [c Q]. destruct (DS b c Q) as (Nba & _ & m & Em).
      rewrite (proj1 (T b Nb)), Q, Em. cbn [lift obind].
      assert (Q1 : dis s1 b a = Some c) by (rewrite (proj1 (T b Nb)); auto).
      destruct (set_dis_msg_spec s1 b a c m Q1) as (s2 & -> & F2 & M2 & A2 & D2 & O2). cbn [obind].
      eexists. split; [reflexivity|]. splits.
      + eapply same_frame_trans; [exact F|]. eapply same_frame_trans; [exact F2|]. apply drop_merged_frame.
      + intros x y. rewrite drop_merged_act, A2. auto.
      + intros x y Ny. rewrite drop_merged_dis, O2 by congruence. auto.
      + intros x Nx. rewrite drop_merged_dis, drop_merged_merged. rewrite in_app_iff in Nx. simpl in Nx.
        assert (x <> b) by (intros ->; apply Nx; auto). rewrite O2 by congruence.
        rewrite (proj2 (Nat.eqb_neq x b)) by auto. rewrite (M2 x). apply T. tauto.
      + intros x Ix. rewrite drop_merged_dis, drop_merged_merged. apply in_app_iff in Ix. simpl in Ix.
        destruct (Nat.eqb_spec x b) as [->|Nx].
        * split; auto. exists c, m. auto.
        * destruct Ix as [Ix|[<-|[]]]; [|congruence]. destruct (I x Ix) as (I1 & c1 & m1 & I2 & I3 & I4).
          rewrite (M2 x). split; auto. exists c1, m1. splits; auto. rewrite O2 by congruence. auto.
    - exists s'. splits; auto.
      + intros x Q. rewrite <- Q. apply T. intros Ix. apply LI in Ix as [c Q']. congruence.
      + intros x c Q. assert (Ix : In x l) by (apply LI; eauto). destruct (I x Ix) as (I1 & c1 & m & I2 & I3 & I4).
        rewrite Q in I2. injection I2 as <-. split; auto. exists m. auto.
  Qed.

  (** the disabled connections of [a] become active *)
  Lemma activate_loop s fs a e : core s fs -> env_ok e ->
    forall s0, g_node s0 = g_node s -> g_vars s0 = g_vars s ->
    exists s', ofold (fun b s => match dis s a b with
                                 | None => Undef
                                 | Some c => Ret tt (activate (drop_merged s b) a b (c_fac c))
                                 end) (e_ord e a (keys (gsize s) (nd_dis (g_node s a)))) s0 = Ret tt s' /\
      same_frame s0 s' /\
      (forall x y, dis s' x y = if touches x y a then None else dis s x y) /\
      (forall x y, touches x y a = false -> act s' x y = act s x y) /\
      (forall x y, touches x y a = true -> match dis s x y with
                                           | Some c => exists c', act s' x y = Some c' /\ c_fac c' = c_fac c
                                           | None => act s' x y = act s x y end) /\
      (forall x, dis s a x <> None -> nd_merged (g_node s' x) = None) /\
      (forall x, dis s a x = None -> nd_merged (g_node s' x) = nd_merged (g_node s x)).
  Proof.
    intros C E s0 EN EV. set (l := e_ord e a (keys (gsize s) (nd_dis (g_node s a)))).
    assert (D0 : forall x y, dis s0 x y = dis s x y) by (intros; unfold dis; rewrite EN; auto).
    assert (A0 : forall x y, act s0 x y = act s x y) by (intros; unfold act; rewrite EN; auto).
    assert (LI : forall b, In b l <-> exists c, dis s a b = Some c).
    { intros b. unfold l. rewrite ord_In, keys_In by auto. unfold dis. split. intros [_ Q]; auto.
      intros [c Q]. split; eauto. apply (co_dis _ _ _ C) in Q. apply link_lt in Q. tauto. }
    assert (ND : NoDup l) by (apply ord_NoDup, keys_NoDup; auto).
    match goal with |- context [ofold ?g l s0] =>
    destruct (ofold_inv g (fun done s' =>
       same_frame s0 s' /\
       (forall x y, among x y a done = false -> act s' x y = act s x y /\ dis s' x y = dis s x y) /\
       (forall x y, among x y a done = true -> dis s' x y = None /\ match dis s x y with
                                           | Some c => exists c', act s' x y = Some c' /\ c_fac c' = c_fac c
                                           | None => False end) /\
       (forall x, nd_merged (g_node s' x) = if mem x done then None else nd_merged (g_node s x))) l s0) as (s' & Es & F & U & T & M)
    end.
    - splits; auto. apply same_frame_refl. intros x y A. apply among_true in A as [[_ []]|[_ []]]. intros x. rewrite EN. auto.
    - intros done b rest s1 El (F & U & T & M).
      assert (Hb : In b l) by (rewrite El; apply in_app_iff; simpl; auto).
      assert (Nb : ~ In b done) by (rewrite El in ND; apply NoDup_split_mid in ND; tauto).
      assert (Nab : a <> b). { apply LI in Hb as [c Q]. apply (co_dis _ _ _ C) in Q. apply Q. }
      destruct (proj1 (LI b) Hb) as [c Q].
      assert (Q1 : dis s1 a b = Some c).
      { rewrite (proj2 (U a b ltac:(destruct (among a b a done) eqn:Z; auto; apply among_true in Z as [[_ Z]|[Z _]]; [contradiction|congruence]))). auto. }
      rewrite Q1. eexists. split; [reflexivity|].
      destruct (activate_frame (drop_merged s1 b) a b (c_fac c)) as [F2 M2].
      assert (AM : forall x y, among x y a (done ++ [b]) = among x y a done || pair_is x y a b).
      { intros x y. apply eq_true_iff_eq. rewrite orb_true_iff, !among_true, pair_is_true, !in_app_iff. simpl. intuition subst; auto. }
      splits.
      + eapply same_frame_trans; [exact F|]. eapply same_frame_trans; [apply drop_merged_frame|exact F2].
      + intros x y A. rewrite AM in A. apply orb_false_iff in A as [A1 A2].
        rewrite activate_act, activate_dis, A2, drop_merged_act, drop_merged_dis by auto. apply U; auto.
      + intros x y A. rewrite AM in A. rewrite activate_dis by auto. destruct (pair_is x y a b) eqn:P.
        * split; auto. destruct (activate_act_pair (drop_merged s1 b) a b (c_fac c) x y Nab P) as (c' & Hc' & Ec' & _).
          apply pair_is_true in P as [[-> ->]|[-> ->]].
          -- rewrite Q. eauto.
          -- destruct (co_dis_sym _ _ _ C a b c Q) as (c2 & -> & E2). exists c'. split; auto. congruence.
        * rewrite orb_false_r in A. rewrite activate_act, P, drop_merged_act, drop_merged_dis by auto. apply T; auto.
      + intros x. rewrite (M2 x), drop_merged_merged, M. unfold mem. rewrite existsb_app. simpl.
        rewrite orb_false_r. destruct (Nat.eqb_spec x b); destruct (existsb (Nat.eqb x) done); auto.
    - exists s'. splits; auto.
      + intros x y. destruct (touches x y a) eqn:TT.
        * destruct (among x y a l) eqn:A; [apply T; auto|]. rewrite (proj2 (U x y A)).
          destruct (dis s x y) as [c|] eqn:Q; auto. exfalso.
          assert (Z : among x y a l = true); [|congruence]. apply among_true. apply touches_true in TT as [->| ->].
          -- left. split; auto. apply LI; eauto.
          -- right. split; auto. apply LI. destruct (co_dis_sym _ _ _ C _ _ _ Q) as (c' & Q' & _). eauto.
        * apply U. destruct (among x y a l) eqn:A; auto. apply touches_false in TT. apply among_true in A as [[? _]|[? _]]; tauto.
      + intros x y TT. apply U. destruct (among x y a l) eqn:A; auto. apply touches_false in TT. apply among_true in A as [[? _]|[? _]]; tauto.
      + intros x y TT. destruct (among x y a l) eqn:A; [apply T in A as [_ A]; destruct (dis s x y); tauto|].
        destruct (dis s x y) as [c|] eqn:Q; [|apply U; auto]. exfalso.
        assert (Z : among x y a l = true); [|congruence]. apply among_true. apply touches_true in TT as [->| ->].
        -- left. split; auto. apply LI; eauto.
        -- right. split; auto. apply LI. destruct (co_dis_sym _ _ _ C _ _ _ Q) as (c' & Q' & _). eauto.
      + intros x Q. rewrite M. assert (I : In x l) by (apply LI; destruct (dis s a x); eauto; congruence).
        apply mem_In in I. rewrite I. auto.
      + intros x Q. rewrite M. destruct (mem x l) eqn:I; auto. apply mem_In, LI in I as [c I]. congruence.
  Qed.

  (** {1 [set_evidence]} *)

  (** the invariant while the evidence of [a] has not been sent yet *)
  Record core_but s (fs : list nat) (a : nat) : Prop := {
    cb_vars : NoDup (map vkey (g_vars s));
    cb_made : Forall made (g_vars s);
    cb_ev : forall a k, g_ev s a = Some k -> exists v, var_at s a v /\ k < vsize v;
    cb_act : forall a b c, act s a b = Some c -> link s fs a b (c_fac c);
    cb_act_sym : forall a b c, act s a b = Some c -> exists c', act s b a = Some c' /\ c_fac c' = c_fac c;
    cb_dis : forall a b c, dis s a b = Some c -> link s fs a b (c_fac c);
    cb_dis_sym : forall a b c, dis s a b = Some c -> exists c', dis s b a = Some c' /\ c_fac c' = c_fac c;
    cb_excl : forall a b c d, act s a b = Some c -> dis s a b = Some d -> False;
    cb_hh : forall a b, g_ev s a = None -> g_ev s b = None -> dis s a b = None;
    cb_oo : forall a b, g_ev s a <> None -> g_ev s b <> None -> act s a b = None;
    cb_un : forall a f, In f (nd_un (g_node s a)) -> In f fs /\ exists v, var_at s a v /\ fvars H f = [v];
    cb_und : forall a, NoDup (nd_un (g_node s a));
    cb_fs : NoDup fs;
    cb_fac : forall f, In f fs -> placed H s f;
    cb_msg : forall x b c k v, b <> a -> g_ev s x = None -> g_ev s b = Some k -> dis s x b = Some c -> var_at s b v ->
      exists m, c_msg c = Some m /\ evidence_factor (H (c_fac c)) v k = Ok m;
    cb_merged : forall x m, g_ev s x = None -> dis s x a = None -> nd_merged (g_node s x) = Some m -> merged_for H s x m
  }.

  Lemma core_but_of s fs a : core s fs -> core_but s fs a.
  Proof. intros C. constructor; try apply C. intros x b c k v _. apply C. intros x m E _. apply C. auto. Qed.

  Lemma link_evidence s fs x a c w value : (forall k v, var_at s k v -> In v (g_vars s)) -> link s fs x a (c_fac c) -> var_at s a w -> value < vsize w ->
    exists m, evidence_factor (H (c_fac (N:=N) c)) w value = Ok m.
  Proof.
    intros _ (_ & _ & va & vb & Ha & Hb & Ef) Hw Hv. assert (vb = w) by (eapply var_at_fun; eauto). subst vb.
    destruct Ef as [Ef|Ef].
    - destruct (evidence_factor_ok _ _ _ w va value (factor_binary H HG _ _ _ Ef) ltac:(auto) Hv) as (m & Em & _). eauto.
    - destruct (evidence_factor_ok _ _ _ w va value (factor_binary H HG _ _ _ Ef) ltac:(auto) Hv) as (m & Em & _). eauto.
  Qed.

  Lemma send_core s fs a e w value : core_but s fs a -> env_ok e -> var_at s a w -> value < vsize w -> g_ev s a = Some value ->
    exists s', send_evidence H e a value s = Ret tt s' /\ core s' fs /\ same_frame s s' /\ forall x y, act s' x y = act s x y.
  Proof.
    intros C E Hw Hv Ea.
    destruct (send_loop s a e w value E Hw Hv) as (s' & Es & F & EA & ED & EN & ES).
    { intros x c Q. apply (cb_dis _ _ _ C) in Q. apply link_lt in Q. tauto. }
    { intros x c Q. apply (cb_dis_sym _ _ _ C) in Q. auto. }
    { intros x c Q. pose proof (cb_dis _ _ _ C _ _ _ Q) as L. split. apply L. split.
      - apply (cb_dis_sym _ _ _ C) in Q as (c' & Q & _). eauto.
      - eapply link_evidence; eauto. intros; eapply nth_error_In; eauto. }
    exists s'. splits; auto. destruct F as (F1 & F2 & F3 & F4 & F5 & F6 & F7 & F8).
    assert (VA : forall x w, var_at s' x w <-> var_at s x w) by (intros; unfold var_at; rewrite F1; tauto).
    assert (LK : forall x y g, link s fs x y g <-> link s' fs x y g).
    { intros x y g. split; apply link_mono; auto using incl_refl; intros; apply VA; auto. }
    (* the disabled connections are the same up to the message *)
    assert (DS : forall x y c, dis s' x y = Some c -> exists c0, dis s x y = Some c0 /\ c_fac c0 = c_fac c).
    { intros x y c Q. destruct (Nat.eq_dec y a) as [->|Ny].
      - destruct (dis s x a) as [c0|] eqn:Q0.
        + destruct (ES x c0 Q0) as (_ & m & Q1 & _). rewrite Q1 in Q. injection Q as <-. eauto.
        + destruct (EN x Q0). congruence.
      - rewrite ED in Q by auto. eauto. }
    assert (DS' : forall x y c, dis s x y = Some c -> exists c0, dis s' x y = Some c0 /\ c_fac c0 = c_fac c).
    { intros x y c Q. destruct (Nat.eq_dec y a) as [->|Ny].
      - destruct (ES x c Q) as (_ & m & Q1 & _). rewrite Q1. eexists. split; [reflexivity|]. reflexivity.
      - rewrite ED by auto. eauto. }
    constructor.
    - rewrite F1. apply C.
    - rewrite F1. apply C.
    - rewrite F3. intros x k Ex. destruct (cb_ev _ _ _ C x k Ex) as (u & Hu & L). exists u. rewrite VA. auto.
    - intros x y c. rewrite EA. intros Q. apply LK. eapply cb_act; eauto.
    - intros x y c. rewrite !EA. apply C.
    - intros x y c Q. destruct (DS x y c Q) as (c0 & Q0 & <-). apply LK. eapply cb_dis; eauto.
    - intros x y c Q. destruct (DS x y c Q) as (c0 & Q0 & <-). destruct (cb_dis_sym _ _ _ C _ _ _ Q0) as (c1 & Q1 & <-).
      apply DS' in Q1. auto.
    - intros x y c d. rewrite EA. intros Q1 Q2. apply DS in Q2 as (c0 & Q2 & _). eapply cb_excl; eauto.
    - intros x y. rewrite F3. intros Ex Ey. destruct (dis s' x y) eqn:Q; auto. apply DS in Q as (c0 & Q & _).
      rewrite (cb_hh _ _ _ C) in Q by auto. discriminate.
    - intros x y. rewrite F3, EA. apply C.
    - intros x g. rewrite F8. intros I. destruct (cb_un _ _ _ C x g I) as (J & u & Hu & Eu). split; auto. exists u. rewrite VA. auto.
    - intros x. rewrite F8. apply C.
    - apply C.
    - intros g I. destruct (cb_fac _ _ _ C g I) as [(u & x & Eu & Hu & Hi)|(wa & wb & x & y & c & Eg & Hx & Hy & Hc & Ec)].
      + left. exists u, x. rewrite F8, VA. auto.
      + right. destruct Hc as [Hc|Hc].
        * exists wa, wb, x, y, c. rewrite EA, !VA. splits; auto.
        * destruct (DS' x y c Hc) as (c0 & Q0 & E0). exists wa, wb, x, y, c0. rewrite !VA. splits; auto. congruence.
    - intros x y c k v. rewrite F3, VA. intros Ex Ey Q Hy. destruct (Nat.eq_dec y a) as [->|Ny].
      + destruct (DS x a c Q) as (c0 & Q0 & _). destruct (ES x c0 Q0) as (_ & m & Q1 & Em).
        rewrite Q1 in Q. injection Q as <-. simpl. exists m. split; auto. rewrite Ea in Ey. injection Ey as <-.
        rewrite (var_at_fun s a v w); auto.
      + rewrite ED in Q by auto. eapply (cb_msg _ _ _ C); eauto.
    - intros x m. rewrite F3. intros Ex Em. destruct (dis s x a) as [c|] eqn:Q.
      { destruct (ES x c Q) as (Z & _). congruence. }
      destruct (EN x Q) as [Q' M]. rewrite M in Em.
      assert (EDx : forall y, dis s' x y = dis s x y).
      { intros y. destruct (Nat.eq_dec y a) as [->|Ny]; auto. congruence. }
      eapply merged_for_ext; [apply F8|apply EDx| | |eapply (cb_merged _ _ _ C); eauto].
      + apply dis_keys_eq; auto; unfold gsize; rewrite F1; auto.
      + rewrite F1. auto.
  Qed.

  (** hidden node to be observed: its connections are disabled, then the value is stored *)
  Lemma cut_core s fs a e w value s2 : core s fs -> env_ok e -> g_ev s a = None -> var_at s a w -> value < vsize w ->
    (exists s1, ofold (fun b s => disable_known s a b) (e_ord e a (keys (gsize s) (nd_act (g_node s a)))) s = Ret tt s1 /\
       g_vars s2 = g_vars s1 /\ g_node s2 = g_node s1) ->
    g_ev s2 = fupd (g_ev s) a (Some value) -> core_but s2 fs a.
  Proof.
    intros C E Ea Hw Hv (s1 & Es & EV2 & EN2) EE.
    destruct (cut_loop s fs a e C E) as (s1' & Es' & F & FM & EA1 & ED1 & ET1). rewrite Es in Es'. injection Es' as <-.
    destruct F as (F1 & F2 & F3 & F4 & F5 & F6 & F7 & F8).
    assert (F1' : g_vars s2 = g_vars s) by congruence.
    assert (EA : forall x y, act s2 x y = if touches x y a then None else act s x y) by (intros; unfold act at 1; rewrite EN2; apply EA1).
    assert (ED : forall x y, touches x y a = false -> dis s2 x y = dis s x y) by (intros; unfold dis at 1; rewrite EN2; apply ED1; auto).
    assert (ET : forall x y, touches x y a = true -> match act s x y with
                                           | Some c => exists c', dis s2 x y = Some c' /\ c_fac c' = c_fac c
                                           | None => dis s2 x y = dis s x y end).
    { intros x y T. specialize (ET1 x y T). unfold dis in *. rewrite EN2. exact ET1. }
    assert (F8' : forall x, nd_un (g_node s2 x) = nd_un (g_node s x)) by (intros; rewrite EN2; auto).
    assert (FM' : forall x, nd_merged (g_node s2 x) = nd_merged (g_node s x)) by (intros; rewrite EN2; apply FM).
    assert (VA : forall x w, var_at s2 x w <-> var_at s x w) by (intros; unfold var_at; rewrite F1'; tauto).
    assert (LK : forall x y g, link s fs x y g -> link s2 fs x y g).
    { intros x y g. apply link_mono; auto using incl_refl; intros; apply VA; auto. }
    assert (EVx : forall x, x <> a -> g_ev s2 x = g_ev s x) by (intros; rewrite EE; apply fupd_ne; auto).
    assert (EVa : g_ev s2 a = Some value) by (rewrite EE; apply fupd_eq).
    (* a disabled connection comes from a connection with the same factor *)
    assert (DS : forall x y c, dis s2 x y = Some c -> exists c0, (dis s x y = Some c0 \/ (act s x y = Some c0 /\ touches x y a = true)) /\ c_fac c0 = c_fac c).
    { intros x y c Q. destruct (touches x y a) eqn:T.
      - specialize (ET x y T). destruct (act s x y) as [c0|].
        + destruct ET as (c' & Q' & E'). rewrite Q' in Q. injection Q as <-. eauto.
        + rewrite ET in Q. eauto.
      - rewrite ED in Q by auto. eauto. }
    assert (DS' : forall x y c0, (dis s x y = Some c0 \/ (act s x y = Some c0 /\ touches x y a = true)) -> exists c, dis s2 x y = Some c /\ c_fac c = c_fac c0).
    { intros x y c0 Q. destruct (touches x y a) eqn:T.
      - specialize (ET x y T). destruct (act s x y) as [c1|] eqn:Q1.
        + destruct ET as (c' & Q' & E'). destruct Q as [Q|[Q _]]. exfalso; eapply co_excl; eauto. injection Q as <-. eauto.
        + destruct Q as [Q|[Q _]]; [|discriminate]. rewrite ET. eauto.
      - destruct Q as [Q|[_ Q]]; [|discriminate]. rewrite ED by auto. eauto. }
    constructor.
    - rewrite F1'. apply C.
    - rewrite F1'. apply C.
    - intros x k Ex. destruct (Nat.eq_dec x a) as [->|Nx].
      + rewrite EVa in Ex. injection Ex as <-. exists w. rewrite VA. auto.
      + rewrite EVx in Ex by auto. destruct (co_ev _ _ _ C x k Ex) as (u & Hu & L). exists u. rewrite VA. auto.
    - intros x y c. rewrite EA. destruct (touches x y a); [discriminate|]. intros Q. apply LK. eapply co_act; eauto.
    - intros x y c. rewrite !EA, (touches_sym y x). destruct (touches x y a); [discriminate|]. apply C.
    - intros x y c Q. destruct (DS x y c Q) as (c0 & [Q0|[Q0 _]] & <-); apply LK; [eapply co_dis|eapply co_act]; eauto.
    - intros x y c Q. destruct (DS x y c Q) as (c0 & [Q0|[Q0 T]] & <-).
      + destruct (co_dis_sym _ _ _ C _ _ _ Q0) as (c1 & Q1 & <-). apply DS'; auto.
      + destruct (co_act_sym _ _ _ C _ _ _ Q0) as (c1 & Q1 & <-). apply DS'. right. split; auto. rewrite touches_sym; auto.
    - intros x y c d. rewrite EA. destruct (touches x y a) eqn:T; [discriminate|]. intros Q1 Q2. rewrite ED in Q2 by auto.
      eapply co_excl; eauto.
    - intros x y Ex Ey. destruct (Nat.eq_dec x a) as [->|Nx]; [congruence|]. destruct (Nat.eq_dec y a) as [->|Ny]; [congruence|].
      rewrite EVx in Ex, Ey by auto. rewrite ED by (apply touches_false; auto). apply C; auto.
    - intros x y Ex Ey. rewrite EA. destruct (touches x y a) eqn:T; auto. apply touches_false in T as [Nx Ny].
      rewrite EVx in Ex, Ey by auto. apply C; auto.
    - intros x g. rewrite F8'. intros I. destruct (co_un _ _ _ C x g I) as (J & u & Hu & Eu). split; auto. exists u. rewrite VA. auto.
    - intros x. rewrite F8'. apply C.
    - apply C.
    - intros g I. destruct (co_fac _ _ _ C g I) as [(u & x & Eu & Hu & Hi)|(wa & wb & x & y & c & Eg & Hx & Hy & Hc & Ec)].
      + left. exists u, x. rewrite F8', VA. auto.
      + right. assert (K : act s2 x y = Some c \/ dis s x y = Some c \/ (act s x y = Some c /\ touches x y a = true)).
        { destruct Hc as [Hc|Hc]; auto. rewrite EA. destruct (touches x y a); auto. }
        destruct K as [K|K].
        * exists wa, wb, x, y, c. rewrite !VA. splits; auto.
        * destruct (DS' x y c K) as (c0 & Q0 & E0). exists wa, wb, x, y, c0. rewrite !VA. splits; auto. congruence.
    - intros x y c k v Ny Ex Ey Q Hy. rewrite VA in Hy. destruct (Nat.eq_dec x a) as [->|Nx]; [congruence|].
      rewrite EVx in Ex, Ey by auto. rewrite ED in Q by (apply touches_false; auto). eapply (co_msg _ _ _ C); eauto.
    - intros x m Ex Qa Em. destruct (Nat.eq_dec x a) as [->|Nx]; [congruence|]. rewrite EVx in Ex by auto. rewrite FM' in Em.
      assert (EDx : forall y, dis s2 x y = dis s x y).
      { intros y. destruct (Nat.eq_dec y a) as [->|Ny].
        - rewrite Qa. destruct (dis s x a) as [c0|] eqn:Q0; auto.
          destruct (DS' x a c0 (or_introl Q0)) as (c & Q & _). congruence.
        - apply ED. apply touches_false; auto. }
      eapply merged_for_ext; [apply F8'|apply EDx| | |eapply (co_merged _ _ _ C); eauto].
      + apply dis_keys_eq; auto; unfold gsize; rewrite F1'; auto.
      + rewrite F1'. auto.
  Qed.

  Lemma set_ev_but s fs a w value : core s fs -> g_ev s a <> None -> var_at s a w -> value < vsize w ->
    core_but (set_ev s (fupd (g_ev s) a (Some value))) fs a.
  Proof.
    intros C Ea Hw Hv.
    assert (EE : forall x, fupd (g_ev s) a (Some value) x = None <-> g_ev s x = None).
    { intros x. unfold fupd. destruct (Nat.eqb_spec x a); [subst|tauto]. split; intros Q; congruence. }
    constructor; simpl; try apply C.
    - intros x k. unfold fupd. destruct (Nat.eqb_spec x a) as [->|]; [|apply C]. intros [= <-]. exists w. auto.
    - intros x y. rewrite !EE. apply C.
    - intros x y. rewrite !EE. apply C.
    - intros x b c k v Nb. rewrite EE. unfold fupd. rewrite (proj2 (Nat.eqb_neq b a) Nb). apply C.
    - intros x m. rewrite EE. intros Ex _. apply C; auto.
  Qed.

  Lemma compute_clusters_nil e s : env_ok e -> compute_clusters e s [] = [].
  Proof.
    intros E. unfold compute_clusters. pose proof (proj1 E (gsize s) []) as P. symmetry in P. apply Permutation_nil in P.
    rewrite P. reflexivity.
  Qed.

  Definition observe (m : nat -> option nat) (a k : nat) : nat -> option nat := fupd m a (Some k).

  Lemma set_evidence_ok s fs e v value : core s fs -> clus s -> env_ok e ->
    ((vsize v <= value \/ find_node s v = None) /\ set_evidence H e s v value = Thr s) \/
    (value < vsize v /\ exists a s', find_node s v = Some a /\ set_evidence H e s v value = Ret tt s' /\
      core s' fs /\ clus s' /\ g_vars s' = g_vars s /\ g_ev s' = fupd (g_ev s) a (Some value) /\ g_all s' = g_all s /\
      g_last s' = None /\ (clean s -> clean s')).
  Proof.
    intros C CS E. unfold set_evidence. destruct (Nat.leb_spec (vsize v) value) as [L|L]; [auto|].
    destruct (locate s v) as [[a l]|] eqn:EL.
    2:{ left. split; auto. right. apply locate_find. auto. }
    right. split; auto. destruct (locate_ok H s fs v a l C CS EL) as [Fa Ll].
    pose proof Fa as Fa'. apply find_node_spec in Fa' as (w & Hw & Ek); [|apply C].
    assert (Lw : value < vsize w) by (injection Ek as _ ->; auto). exists a.
    destruct l as [i|k0]; simpl in Ll.
    - destruct Ll as (Ea & ci & Hi & Hai).
      destruct (cut_loop s fs a e C E) as (s1 & E1 & F & FM & EA1 & ED1 & ET1).
      rewrite E1. cbn [obind]. pose proof F as (F1 & F2 & F3 & F4 & F5 & F6 & F7 & F8).
      unfold get_cl, vget. rewrite F2, Hi. cbn [lift obind].
      set (rest := filter (fun k => negb (k =? a)) (cl_nodes ci)).
      set (s2 := set_cl s1 (without [i] (g_cl s))).
      assert (NDi : NoDup (cl_nodes ci)).
      { pose proof (clus_nodup s CS) as ND. apply nth_error_split in Hi as (l1 & l2 & El & _). rewrite El in ND.
        rewrite map_app, concat_app in ND. simpl in ND. apply NoDup_app_parts in ND as [_ ND]. apply NoDup_app_parts in ND. tauto. }
      set (cls := without [i] (g_cl s) ++ compute_clusters e s2 rest).
      set (s3 := set_ev (set_cl s1 cls) (fupd (g_ev s) a (Some value))). cbv zeta. cbn [obind].
      match goal with |- context [send_evidence H e a value ?X] => assert (Eif : X = s3) end.
      { unfold s3, cls, s2. rewrite F2. destruct (Nat.eqb_spec (length (cl_nodes ci)) 1) as [Q|Q].
        - assert (ER : rest = []).
          { unfold rest. destruct (cl_nodes ci) as [|x [|]]; try discriminate. destruct Hai as [->|[]]. simpl. rewrite Nat.eqb_refl. reflexivity. }
          rewrite ER, compute_clusters_nil, app_nil_r by auto. simpl. rewrite F3. reflexivity.
        - simpl. rewrite F3. reflexivity. }
      rewrite Eif. clear Eif.
      assert (CB : core_but s3 fs a).
      { eapply cut_core; eauto. }
      assert (Hw3 : var_at s3 a w) by (unfold var_at; simpl; rewrite F1; auto).
      assert (Ea3 : g_ev s3 a = Some value) by (simpl; apply fupd_eq).
      destruct (send_core s3 fs a e w value CB E Hw3 Lw Ea3) as (s4 & E4 & C4 & F' & EA4).
      rewrite E4. cbn [obind]. destruct F' as (G1 & G2 & G3 & G4 & G5 & G6 & G7 & G8).
      exists (reset_belief s4). split; auto. split; auto.
      assert (EA : forall x y, act (reset_belief s4) x y = if touches x y a then None else act s x y).
      { intros x y. change (act (reset_belief s4) x y) with (act s4 x y). rewrite EA4. apply EA1. }
      split. { eapply core_same; [| | |exact C4]; auto. }
      assert (NEW := compute_clusters_ok e s2 rest E ltac:(apply NoDup_filter; auto)).
      assert (SYM : forall x y, x < gsize s2 -> aedge s2 x y -> aedge s2 y x).
      { intros x y Lx (Ly & c & Q). change (act s2 x y) with (act s1 x y) in Q. rewrite EA1 in Q.
        destruct (touches x y a) eqn:T; [discriminate|]. destruct (co_act_sym _ _ _ C _ _ _ Q) as (c' & Q' & _).
        split; auto. exists c'. change (act s2 y x) with (act s1 y x). rewrite EA1, touches_sym, T. auto. }
      specialize (NEW SYM). destruct NEW as [NC NT].
      { apply Forall_forall. intros x Hx. apply filter_In in Hx as [Hx _]. change (gsize s2) with (length (g_vars s1)). rewrite F1.
        eapply clus_hidden; eauto. eapply nth_error_In; eauto. }
      split.
      { constructor.
        - change (g_cl (reset_belief s4)) with (g_cl s4). rewrite G2. change (g_cl s3) with cls. unfold cls. rewrite map_app.
          eapply components_dom_perm.
          2:{ eapply (components_remove (eact s) _ a (hid s) (cl_nodes ci)).
              - intros x y. unfold eact. rewrite EA. rewrite <- touches_false. destruct (touches x y a) eqn:T; split.
                + intros [c Q]; discriminate.
                + intros [_ Q]; discriminate.
                + intros Q; auto.
                + tauto.
              - apply hid_NoDup.
              - eapply components_perm; [|apply CS].
                assert (P : Permutation (g_cl s) (without [i] (g_cl s) ++ map (fun j => nth j (g_cl s) ci) [i])).
                { apply without_perm. repeat constructor; auto. intros j [<-|[]]. eapply nth_error_lt; eauto. }
                apply (Permutation_map cl_nodes) in P. rewrite map_app in P. simpl in P.
                rewrite (nth_error_nth _ _ ci Hi) in P. rewrite P. rewrite Permutation_app_comm. reflexivity.
              - auto.
              - eapply components_ext; [|exact NC]. intros x y Hx Hy.
                unfold aedge, eact. rewrite EA. change (act s2 x y) with (act s1 x y). rewrite EA1. split.
                + intros [_ Q]. auto.
                + intros [c Q]. split; [|eauto]. destruct (touches x y a); [discriminate|].
                  apply (co_act _ _ _ C) in Q. apply link_lt in Q. unfold gsize. change (g_vars s2) with (g_vars s1). rewrite F1. tauto. }
          apply NoDup_Permutation. apply hid_NoDup. apply NoDup_filter, hid_NoDup.
          intros x. rewrite filter_In, !hid_In, negb_true_iff, Nat.eqb_neq.
          change (g_ev (reset_belief s4)) with (g_ev s4). rewrite G3. change (g_ev s3) with (fupd (g_ev s) a (Some value)).
          assert (ES : gsize (reset_belief s4) = gsize s).
          { unfold gsize. change (g_vars (reset_belief s4)) with (g_vars s4). rewrite G1. change (g_vars s3) with (g_vars s1). rewrite F1. auto. }
          rewrite ES. unfold fupd. destruct (Nat.eqb_spec x a) as [->|Nx].
          + split. intros [_ Q]; discriminate. tauto.
          + tauto.
        - change (g_cl (reset_belief s4)) with (g_cl s4). rewrite G2. change (g_cl s3) with cls. unfold cls.
          intros cl ts I Ht. apply in_app_iff in I as [I|I].
          + assert (exists j, j <> i /\ nth_error (g_cl s) j = Some cl) as (j & Nj & Hj).
            { rewrite (without_map _ _ cl) in I. apply in_map_iff in I as (j & En & I). apply filter_In in I as [I1 I2].
              exists j. split. intros ->. simpl in I2. rewrite Nat.eqb_refl in I2. discriminate.
              rewrite <- En. apply nth_error_nth'. apply in_seq in I1. lia. }
            assert (Na : ~ In a (cl_nodes cl)) by (intros I'; apply Nj; eapply clus_index; eauto).
            assert (Ic : In cl (g_cl s)) by (eapply nth_error_In; eauto).
            assert (NB : forall x, In x (cl_nodes cl) -> act s x a = None).
            { intros x Hx. destruct (act s x a) eqn:Q; auto. exfalso. apply Na.
              eapply (cp_closed _ _ _ (cs_comp _ CS) (cl_nodes cl) x a). apply in_map; auto. auto.
              eexists; eauto. apply hid_In. split; auto. eapply var_at_lt; eauto. }
            eapply topo_ok_ext; [|eapply (cs_topo _ CS); eauto].
            intros x y Ixy. rewrite EA. destruct (touches x y a) eqn:T; auto.
            apply touches_true in T. assert (Q : act s x y = None).
            { destruct T as [->| ->], Ixy as [Ix|Iy]; try contradiction; auto.
              destruct (act s a y) eqn:Q; auto. destruct (co_act_sym _ _ _ C _ _ _ Q) as (c' & Q' & _). rewrite NB in Q' by auto. discriminate. }
            rewrite Q. reflexivity.
          + rewrite (NT cl I) in Ht. discriminate. }
      splits.
      + simpl. rewrite G1. simpl. auto.
      + simpl. rewrite G3. auto.
      + simpl. rewrite G4. simpl. auto.
      + reflexivity.
      + intros CL x y [c Q]. rewrite EA in Q. destruct (touches x y a) eqn:T; [discriminate|]. apply touches_false in T as [Nx Ny].
        change (g_ev (reset_belief s4)) with (g_ev s4). rewrite G3. change (g_ev s3) with (fupd (g_ev s) a (Some value)).
        rewrite !fupd_ne by auto. apply CL. exists c; auto.
    - cbn [obind]. set (s1 := set_ev s (fupd (g_ev s) a (Some value))).
      assert (Ea : g_ev s a <> None) by congruence.
      pose proof (set_ev_but s fs a w value C Ea Hw Lw) as CB. fold s1 in CB.
      assert (Ea1 : g_ev s1 a = Some value) by (simpl; apply fupd_eq).
      destruct (send_core s1 fs a e w value CB E Hw Lw Ea1) as (s4 & E4 & C4 & F' & EA4).
      rewrite E4. cbn [obind]. destruct F' as (G1 & G2 & G3 & G4 & G5 & G6 & G7 & G8).
      assert (EE : forall x, g_ev s4 x = None <-> g_ev s x = None).
      { intros x. rewrite G3. simpl. unfold fupd. destruct (Nat.eqb_spec x a); [subst|tauto]. split; intros Q; congruence. }
      exists (reset_belief s4). splits; auto.
      + eapply core_same; [| | |exact C4]; auto.
      + eapply clus_ext; [| | |exact CS].
        * simpl. rewrite G2. auto.
        * unfold hid. simpl. unfold gsize. simpl. rewrite G1. apply filter_ext. intros x. f_equal.
          specialize (EE x). destruct (g_ev s4 x), (g_ev s x); simpl; auto; exfalso; destruct EE as [Z1 Z2];
          [specialize (Z2 eq_refl)|specialize (Z1 eq_refl)]; discriminate.
        * intros x y. change (act (reset_belief s4) x y) with (act s4 x y). rewrite EA4. reflexivity.
      + intros CL x y [c Q]. change (act (reset_belief s4) x y) with (act s4 x y) in Q. rewrite EA4 in Q.
        change (g_ev (reset_belief s4)) with (g_ev s4). rewrite !EE. apply CL. exists c; auto.
  Qed.

  (** {1 Removal} *)

  Lemma remove_one s fs e v : core s fs -> env_ok e ->
    ((find_node s v = None \/ exists a, find_node s v = Some a /\ g_ev s a = None) /\ remove_evidence_ e v s = Thr s) \/
    (exists a k s', find_node s v = Some a /\ g_ev s a = Some k /\ remove_evidence_ e v s = Ret tt s' /\
      core s' fs /\ g_vars s' = g_vars s /\ g_ev s' = fupd (g_ev s) a None /\ g_all s' = g_all s /\ g_cl s' = g_cl s /\
      g_last s' = None /\
      (forall x y, dis s' x y = if touches x y a then None else dis s x y) /\
      (forall x y, eact s' x y <-> eact s x y \/ (touches x y a = true /\ dis s x y <> None))).
  Proof.
    intros C E. unfold remove_evidence_. destruct (find_node s v) as [a|] eqn:Fa; [|auto].
    destruct (g_ev s a) as [k|] eqn:Ea; [|left; split; eauto]. right. exists a, k.
    set (s0 := set_ev (reset_belief s) (fupd (g_ev (reset_belief s)) a None)).
    destruct (activate_loop s fs a e C E s0 eq_refl eq_refl) as (s1 & E1 & F & ED & EU & ET & EM1 & EM2).
    change (gsize s0) with (gsize s). change (g_node s0 a) with (g_node s a). rewrite E1. cbn [obind].
    exists (drop_merged s1 a). destruct F as (F1 & F2 & F3 & F4 & F5 & F6 & F7 & F8).
    pose proof (drop_merged_frame s1 a) as (G1 & G2 & G3 & G4 & G5 & G6 & G7 & G8).
    set (s' := drop_merged s1 a) in *.
    assert (EV : g_vars s' = g_vars s) by (rewrite G1, F1; auto).
    assert (EE : g_ev s' = fupd (g_ev s) a None) by (rewrite G3, F3; auto).
    assert (ED' : forall x y, dis s' x y = if touches x y a then None else dis s x y) by (intros; unfold s'; rewrite drop_merged_dis; auto).
    assert (EU' : forall x y, touches x y a = false -> act s' x y = act s x y) by (intros; unfold s'; rewrite drop_merged_act; auto).
    assert (ET' : forall x y, touches x y a = true -> match dis s x y with
                                           | Some c => exists c', act s' x y = Some c' /\ c_fac c' = c_fac c
                                           | None => act s' x y = act s x y end)
      by (intros x y T; unfold s'; rewrite drop_merged_act; apply ET; auto).
    assert (EUN : forall x, nd_un (g_node s' x) = nd_un (g_node s x)) by (intros; rewrite G8, F8; auto).
    assert (VA : forall x w, var_at s' x w <-> var_at s x w) by (intros; unfold var_at; rewrite EV; tauto).
    assert (LK : forall x y g, link s fs x y g -> link s' fs x y g).
    { intros x y g. apply link_mono; auto using incl_refl; intros; apply VA; auto. }
    assert (EVx : forall x, x <> a -> g_ev s' x = g_ev s x) by (intros; rewrite EE; apply fupd_ne; auto).
    assert (EVa : g_ev s' a = None) by (rewrite EE; apply fupd_eq).
    assert (AS : forall x y c, act s' x y = Some c -> exists c0, (act s x y = Some c0 \/ (dis s x y = Some c0 /\ touches x y a = true)) /\ c_fac c0 = c_fac c).
    { intros x y c Q. destruct (touches x y a) eqn:T.
      - specialize (ET' x y T). destruct (dis s x y) as [c0|].
        + destruct ET' as (c' & Q' & E'). rewrite Q' in Q. injection Q as <-. eauto.
        + rewrite ET' in Q. eauto.
      - rewrite EU' in Q by auto. eauto. }
    assert (AS' : forall x y c0, (act s x y = Some c0 \/ (dis s x y = Some c0 /\ touches x y a = true)) -> exists c, act s' x y = Some c /\ c_fac c = c_fac c0).
    { intros x y c0 Q. destruct (touches x y a) eqn:T.
      - specialize (ET' x y T). destruct (dis s x y) as [c1|] eqn:Q1.
        + destruct ET' as (c' & Q' & E'). destruct Q as [Q|[Q _]]. exfalso; eapply co_excl; eauto. injection Q as <-. eauto.
        + destruct Q as [Q|[Q _]]; [|discriminate]. rewrite ET'. eauto.
      - destruct Q as [Q|[_ Q]]; [|discriminate]. rewrite EU' by auto. eauto. }
    split; auto. split; auto. split; auto. split.
    { constructor.
      - rewrite EV. apply C.
      - rewrite EV. apply C.
      - intros x j Ex. destruct (Nat.eq_dec x a) as [->|Nx]; [congruence|]. rewrite EVx in Ex by auto.
        destruct (co_ev _ _ _ C x j Ex) as (u & Hu & L). exists u. rewrite VA. auto.
      - intros x y c Q. destruct (AS x y c Q) as (c0 & [Q0|[Q0 _]] & <-); apply LK; [eapply co_act|eapply co_dis]; eauto.
      - intros x y c Q. destruct (AS x y c Q) as (c0 & [Q0|[Q0 T]] & <-).
        + destruct (co_act_sym _ _ _ C _ _ _ Q0) as (c1 & Q1 & <-). apply AS'; auto.
        + destruct (co_dis_sym _ _ _ C _ _ _ Q0) as (c1 & Q1 & <-). apply AS'. right. split; auto. rewrite touches_sym; auto.
      - intros x y c. rewrite ED'. destruct (touches x y a); [discriminate|]. intros Q. apply LK. eapply co_dis; eauto.
      - intros x y c. rewrite !ED', (touches_sym y x). destruct (touches x y a); [discriminate|]. apply C.
      - intros x y c d Q1. rewrite ED'. destruct (touches x y a) eqn:T; [discriminate|]. intros Q2. rewrite EU' in Q1 by auto.
        eapply co_excl; eauto.
      - intros x y Ex Ey. rewrite ED'. destruct (touches x y a) eqn:T; auto. apply touches_false in T as [Nx Ny].
        rewrite EVx in Ex, Ey by auto. apply C; auto.
      - intros x y Ex Ey. destruct (Nat.eq_dec x a) as [->|Nx]; [congruence|]. destruct (Nat.eq_dec y a) as [->|Ny]; [congruence|].
        rewrite EVx in Ex, Ey by auto. rewrite EU' by (apply touches_false; auto). apply C; auto.
      - intros x g. rewrite EUN. intros I. destruct (co_un _ _ _ C x g I) as (J & u & Hu & Eu). split; auto. exists u. rewrite VA. auto.
      - intros x. rewrite EUN. apply C.
      - apply C.
      - intros g I. destruct (co_fac _ _ _ C g I) as [(u & x & Eu & Hu & Hi)|(wa & wb & x & y & c & Eg & Hx & Hy & Hc & Ec)].
        + left. exists u, x. rewrite EUN, VA. auto.
        + right. assert (K : dis s' x y = Some c \/ act s x y = Some c \/ (dis s x y = Some c /\ touches x y a = true)).
          { destruct Hc as [Hc|Hc]; auto. rewrite ED'. destruct (touches x y a); auto. }
          destruct K as [K|K].
          * exists wa, wb, x, y, c. rewrite !VA. splits; auto.
          * destruct (AS' x y c K) as (c0 & Q0 & E0). exists wa, wb, x, y, c0. rewrite !VA. splits; auto. congruence.
      - intros x y c j u Ex Ey Q Hy. rewrite ED' in Q. destruct (touches x y a) eqn:T; [discriminate|]. apply touches_false in T as [Nx Ny].
        rewrite EVx in Ex, Ey by auto. rewrite VA in Hy. eapply (co_msg _ _ _ C); eauto.
      - intros x m Ex Em. unfold s' in Em. rewrite drop_merged_merged in Em. destruct (Nat.eqb_spec x a) as [->|Nx]; [discriminate|].
        rewrite EVx in Ex by auto. destruct (dis s a x) as [c|] eqn:Q; [rewrite EM1 in Em by congruence; discriminate|].
        rewrite EM2 in Em by auto.
        assert (EDx : forall y, dis s' x y = dis s x y).
        { intros y. rewrite ED'. destruct (touches x y a) eqn:T; auto. apply touches_true in T as [->| ->]; [congruence|].
          destruct (dis s x a) eqn:Q'; auto. destruct (co_dis_sym _ _ _ C _ _ _ Q') as (c' & Q2 & _). congruence. }
        eapply merged_for_ext; [apply EUN|apply EDx| | |eapply (co_merged _ _ _ C); eauto].
        + apply dis_keys_eq; auto; unfold gsize; rewrite EV; auto.
        + rewrite EV. auto. }
    splits; auto.
    intros x y. split.
    - intros [c Q]. destruct (AS x y c Q) as (c0 & [Q0|[Q0 T]] & _). left; eexists; eauto. right. split; auto. congruence.
    - intros [[c Q]|[T Q]].
      + destruct (AS' x y c (or_introl Q)) as (c' & Q' & _). eexists; eauto.
      + destruct (dis s x y) as [c|] eqn:Q0; [|congruence].
        destruct (AS' x y c (or_intror (conj Q0 T))) as (c' & Q' & _). eexists; eauto.
  Qed.

  Lemma reset_state_ok s fs e : core s fs -> env_ok e -> core (reset_state e s) fs /\ clus (reset_state e s).
  Proof.
    intros C E. split. { eapply core_same; [| | |exact C]; auto. }
    assert (P : Permutation (filter (fun a => negb (is_some (g_ev s a))) (e_ord e (gsize s) (seq 0 (gsize s)))) (hid s)).
    { apply NoDup_Permutation.
      - apply NoDup_filter, ord_NoDup, seq_NoDup; auto.
      - apply hid_NoDup.
      - intros x. rewrite filter_In, ord_In, hid_In, in_seq, negb_true_iff, is_some_false by auto. intuition lia. }
    destruct (compute_clusters_ok e s _ E (perm_NoDup _ _ P (hid_NoDup s))) as [CC CT].
    - intros x y Lx HA. apply (core_aedge H s fs); auto. apply (core_aedge H s fs) in HA; auto. destruct HA as [c Q].
      destruct (co_act_sym _ _ _ C _ _ _ Q) as (c' & Q' & _). exists c'; auto.
    - apply Forall_forall. intros x Hx. rewrite P in Hx. apply hid_In in Hx. tauto.
    - constructor.
      + eapply components_ext; [|eapply components_dom_perm; [|exact CC]].
        * intros x y _ _. rewrite (core_aedge H s fs) by auto. reflexivity.
        * symmetry. exact P.
      + intros cl ts I Ht. rewrite (CT cl I) in Ht. discriminate.
  Qed.

  (** the state after the removal of the evidences of the nodes [ds] *)
  Record removed s s' (fs ds : list nat) : Prop := {
    rm_core : core s' fs;
    rm_vars : g_vars s' = g_vars s;
    rm_all : g_all s' = g_all s;
    rm_cl : g_cl s' = g_cl s;
    rm_nd : NoDup ds;
    rm_was : forall a, In a ds -> g_ev s a <> None;
    rm_ev : forall x, g_ev s' x = if mem x ds then None else g_ev s x;
    rm_dis : forall x y, dis s' x y = if mem x ds || mem y ds then None else dis s x y;
    rm_act : forall x y, eact s' x y <-> eact s x y \/ ((In x ds \/ In y ds) /\ dis s x y <> None);
    rm_last : g_last s' = match ds with [] => g_last s | _ => None end
  }.

  Lemma removed_nil s fs : core s fs -> removed s s fs [].
  Proof. intros C. constructor; auto; simpl; try tauto; try constructor; try congruence. Qed.

  Lemma removed_clean s s' fs ds : core s fs -> removed s s' fs ds -> clean s ->
    (forall a b, In a ds -> dis s a b <> None -> g_ev s b = None \/ In b ds) -> clean s'.
  Proof.
    intros C R CL NB x y Q. apply (rm_act _ _ _ _ R) in Q. rewrite !(rm_ev _ _ _ _ R).
    assert (K : forall a, g_ev s a = None \/ In a ds -> (if mem a ds then None else g_ev s a) = None).
    { intros a [Z|Z]. rewrite Z. destruct (mem a ds); auto. apply mem_In in Z. rewrite Z. auto. }
    destruct Q as [Q|[[I|I] Q]].
    - apply CL in Q as [Q1 Q2]. split; apply K; auto.
    - split; apply K; eauto.
    - split; apply K; auto. apply (NB y x I). destruct (dis s x y) as [c|] eqn:Z; [|congruence].
      destruct (co_dis_sym _ _ _ C _ _ _ Z) as (c' & Z' & _). congruence.
  Qed.

  Lemma removed_step s s1 s' fs a ds :
    g_ev s a <> None -> g_vars s1 = g_vars s -> g_ev s1 = fupd (g_ev s) a None -> g_all s1 = g_all s -> g_cl s1 = g_cl s -> g_last s1 = None ->
    (forall x y, dis s1 x y = if touches x y a then None else dis s x y) ->
    (forall x y, eact s1 x y <-> eact s x y \/ (touches x y a = true /\ dis s x y <> None)) ->
    removed s1 s' fs ds -> removed s s' fs (a :: ds).
  Proof.
    intros Ea V1 E1 A1 L1 B1 D1 X1 R.

          assert (Na : ~ In a ds). { intros I. apply (rm_was _ _ _ _ R) in I. rewrite E1, fupd_eq in I. auto. }
          constructor.
          - apply R.
          - rewrite (rm_vars _ _ _ _ R); auto.
          - rewrite (rm_all _ _ _ _ R); auto.
          - rewrite (rm_cl _ _ _ _ R); auto.
          - constructor; auto. apply R.
          - intros x [<-|I]. congruence. pose proof I as I'. apply (rm_was _ _ _ _ R) in I. rewrite E1, fupd_ne in I; auto.
            intros ->. auto.
          - intros x. rewrite (rm_ev _ _ _ _ R), E1. unfold mem. simpl. unfold fupd. destruct (x =? a); simpl; auto.
            destruct (existsb _ ds); auto.
          - intros x y. rewrite (rm_dis _ _ _ _ R), D1. unfold touches, mem. simpl.
            destruct (x =? a), (y =? a), (existsb (Nat.eqb x) ds), (existsb (Nat.eqb y) ds); auto.
          - intros x y. rewrite (rm_act _ _ _ _ R), X1, D1. rewrite touches_true. simpl.
            destruct (touches x y a) eqn:T.
            + apply touches_true in T. split; [|intros [?|[_ ?]]; auto].
              intros [[?|[? ?]]|[_ ?]]; auto. right. split; auto. destruct T as [->| ->]; auto. congruence.
            + apply touches_false in T as [T1 T2]. split.
              * intros [[?|[[?|?] ?]]|[[?|?] ?]]; auto; congruence.
              * intros [?|[[[?|?]|[?|?]] ?]]; auto; congruence.
          - rewrite (rm_last _ _ _ _ R). destruct ds; auto.
  Qed.

  Lemma ofold_remove fs e vs : env_ok e -> forall s, core s fs ->
    (exists ds s', ofold (remove_evidence_ e) vs s = Ret tt s' /\ removed s s' fs ds /\
       Forall2 (fun v a => find_node s v = Some a) vs ds) \/
    (exists vs1 v vs2 ds s', vs = vs1 ++ v :: vs2 /\ ofold (remove_evidence_ e) vs s = Thr s' /\ removed s s' fs ds /\
       Forall2 (fun v a => find_node s v = Some a) vs1 ds /\ (ds = [] -> s' = s) /\
       forall a, find_node s v = Some a -> In a ds \/ g_ev s a = None).
  Proof.
    intros E. induction vs as [|v vs IH]; intros s C.
    - left. exists [], s. splits; auto. apply removed_nil; auto.
    - simpl. destruct (remove_one s fs e v C E) as [[Q ->]|(a & k & s1 & Fa & Ea & -> & C1 & V1 & E1 & A1 & L1 & B1 & D1 & X1)].
      + cbn [obind]. right. exists [], v, vs, [], s. splits; auto. apply removed_nil; auto.
        intros a Fa. right. destruct Q as [Q|(b & Q & Q')]; congruence.
      + cbn [obind].
        assert (FN : forall v, find_node s1 v = find_node s v) by (intros; unfold find_node; rewrite V1; auto).
        assert (STEP : forall s' ds, removed s1 s' fs ds -> removed s s' fs (a :: ds)) by (intros; eapply removed_step; eauto; congruence).
        destruct (IH s1 C1) as [(ds & s' & -> & R & F2)|(vs1 & w & vs2 & ds & s' & -> & -> & R & F2 & Z & NF)].
        * left. exists (a :: ds), s'. splits; auto. constructor; auto. eapply Forall2_imp; [|exact F2]. intros; rewrite <- FN; auto.
        * right. exists (v :: vs1), w, vs2, (a :: ds), s'. splits; auto.
          -- constructor; auto. eapply Forall2_imp; [|exact F2]. intros; rewrite <- FN; auto.
          -- discriminate.
          -- intros b Fb. rewrite <- FN in Fb. destruct (NF b Fb) as [I|I]; [left; right; auto|].
             rewrite E1 in I. unfold fupd in I. destruct (Nat.eqb_spec b a) as [->|]; auto. left; left; auto.
  Qed.


  Lemma remove_evidence_ok s fs e v : core s fs -> env_ok e ->
    ((find_node s v = None \/ exists a, find_node s v = Some a /\ g_ev s a = None) /\ remove_evidence e s v = Thr s) \/
    (exists a k s1 s', find_node s v = Some a /\ g_ev s a = Some k /\ remove_evidence e s v = Ret tt s' /\
      removed s s1 fs [a] /\ s' = reset_state e s1 /\ core s' fs /\ clus s').
  Proof.
    intros C E. unfold remove_evidence.
    destruct (remove_one s fs e v C E) as [[Q ->]|(a & k & s1 & Fa & Ea & -> & C1 & V1 & E1 & A1 & L1 & B1 & D1 & X1)].
    - left. auto.
    - right. exists a, k, s1, (reset_state e s1). destruct (reset_state_ok s1 fs e C1 E) as [C2 CS2]. splits; auto.
      apply removed_step with (s1 := s1); auto. congruence. apply removed_nil; auto.
  Qed.

  Lemma remove_all_loop fs e : env_ok e -> forall l s, core s fs -> NoDup l -> (forall a, In a l -> g_ev s a <> None) ->
    exists s', ofold (fun a s => do (v, s) <- lift (node_var s a) s ;; remove_evidence_ e v s) l s = Ret tt s' /\ removed s s' fs l.
  Proof.
    intros E. induction l as [|a l IH]; intros s C ND OB.
    - exists s. split; auto. apply removed_nil; auto.
    - inversion ND as [|? ? Na ND']; subst. destruct (g_ev s a) as [k|] eqn:Ea; [|exfalso; eapply OB; simpl; eauto].
      destruct (co_ev _ _ _ C a k Ea) as (w & Hw & _). assert (NV : node_var s a = Ok w) by (unfold node_var, vget; rewrite Hw; auto).
      cbn [ofold]. rewrite NV. cbn [lift obind].
      assert (Fa : find_node s w = Some a) by (apply find_node_spec; [apply C|]; eauto).
      destruct (remove_one s fs e w C E) as [[Q _]|(a' & k' & s1 & Fa' & Ea' & -> & C1 & V1 & E1 & A1 & L1 & B1 & D1 & X1)].
      { exfalso. destruct Q as [Q|(b & Q & Q')]; congruence. }
      assert (a' = a) by congruence. subst a'. cbn [obind].
      destruct (IH s1 C1 ND') as (s' & Es & R).
      { intros x I. rewrite E1, fupd_ne. apply OB. simpl; auto. intros ->. auto. }
      exists s'. split; auto. apply removed_step with (s1 := s1); auto. congruence.
  Qed.

  Lemma remove_all_ok s fs e : core s fs -> env_ok e ->
    exists s', remove_all_evidences e s = Ret tt s' /\ core s' fs /\ clus s' /\ clean s' /\ g_vars s' = g_vars s /\ g_all s' = g_all s /\
      (forall a, g_ev s' a = None) /\ g_last s' = match keys (gsize s) (g_ev s) with [] => g_last s | _ => None end.
  Proof.
    intros C E. unfold remove_all_evidences. set (l := e_ord e (gsize s) (keys (gsize s) (g_ev s))).
    assert (LI : forall a, In a l <-> g_ev s a <> None).
    { intros a. unfold l. rewrite ord_In, keys_In by auto. split. intros (_ & k & Q); congruence.
      intros Q. destruct (g_ev s a) as [k|] eqn:Ea; [|congruence]. split; eauto. eapply ev_lt; eauto. }
    destruct (remove_all_loop fs e E l s C) as (s' & Es & R).
    { apply ord_NoDup, keys_NoDup; auto. } { intros a; apply LI. }
    rewrite Es. cbn [obind]. exists (reset_state e s'). split; auto.
    destruct (reset_state_ok s' fs e (rm_core _ _ _ _ R) E) as [C' CS'].
    assert (EV : forall a, g_ev s' a = None).
    { intros a. rewrite (rm_ev _ _ _ _ R). destruct (mem a l) eqn:M; auto. apply mem_false in M.
      destruct (g_ev s a) eqn:Ea; auto. exfalso. apply M, LI. congruence. }
    splits; auto.
    - intros x y _. simpl. auto.
    - apply R.
    - apply R.
    - simpl. rewrite (rm_last _ _ _ _ R). pose proof (proj1 E (gsize s) (keys (gsize s) (g_ev s))) as P. fold l in P.
      destruct l as [|x l'].
      + apply Permutation_nil in P. rewrite P. auto.
      + destruct (keys (gsize s) (g_ev s)) eqn:K; auto. symmetry in P. apply Permutation_nil in P. discriminate.
  Qed.
End Evid.
