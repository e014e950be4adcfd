(** The propagation of the messages on the model: message passing, loopy
    propagation, all the clusters *)
From Coq Require Import String List Arith Bool Lia Permutation Relations.
From Verif Require Import Res Num Categoric Func FuncProofs GroupProofs FactorProofs FactorApi Special SpecialProofs
  Graph GraphLemmas Clusters Belief GraphInv EvidInv BeliefInv BigOp Tree Cycle BPStep.
Import ListNotations.
Open Scope nat_scope.

Lemma diff_loop_ok {N : num} (a b : list N) : length a = length b -> forall acc, exists d, diff_loop a b acc = Ok d.
Proof.
  revert b; induction a as [|x a IH]; intros [|y b] E acc; simpl in *; try discriminate; eauto.
Qed.
Lemma diff_ok {N : num} (OK : num_ok N) v (f g : func N) : unary v f -> unary v g -> exists d, diff f g = Ok d.
Proof.
  intros [W1 E1] [W2 E2]. unfold diff. rewrite (get_probabilities_ok OK f W1), (get_probabilities_ok OK g W2). cbn [rbind].
  apply diff_loop_ok. rewrite !map_length, (unary_fsizes v f), (unary_fsizes v g); auto; split; auto.
Qed.

Lemma pair_dec (p q : nat * nat) : {p = q} + {p <> q}.
Proof. decide equality; apply Nat.eq_dec. Qed.

Lemma permute_perm {A} (p : list nat -> list nat) (l : list A) : (forall l, Permutation (p l) l) -> Permutation (permute p l) l.
Proof.
  intros P. unfold permute. rewrite (P (seq 0 (length l))). apply Permutation_refl'.
  assert (G : forall k m, flat_map (fun i => match nth_error (m ++ l) i with Some x => [x] | None => [] end) (seq (length m) k) = firstn k l \/ length l < k).
  { induction k as [|k IH]; intros m; [left; auto|]. destruct (Nat.lt_ge_cases (length l) (S k)) as [L|L]; [auto|left].
    rewrite seq_S, flat_map_app. destruct (IH m) as [E|E]; [|lia]. rewrite E. simpl.
    rewrite nth_error_app2 by lia. replace (length m + k - length m) with k by lia.
    destruct (nth_error l k) as [y|] eqn:Q.
    - simpl. clear - Q. revert k Q. induction l as [|z l IH]; intros [|k] Q; simpl in *; try discriminate.
      + congruence.
      + f_equal. apply IH; auto.
    - apply nth_error_None in Q. lia. }
  destruct (G (length l) []) as [E|E]; [|lia]. change (length (@nil A)) with 0 in E. change ([] ++ l) with l in E. rewrite firstn_all in E. exact E.
Qed.
Lemma schedule_perm {A} e pool (l : list A) : env_ok e -> Permutation (schedule e pool l) l.
Proof. intros E. unfold schedule. destruct (pool =? 1); auto. apply permute_perm. intros l'. apply E. Qed.

Lemma list_snoc {A} (l : list A) : l = [] \/ exists l' x, l = l' ++ [x].
Proof. destruct l as [|y l]; auto. right. destruct (@exists_last A (y :: l)) as (l' & x & E). discriminate. eauto. Qed.

(** position of a pair in a list *)
Definition pos_of (l : list (nat * nat)) (p : nat * nat) : nat :=
  match find_pos (fun q => Nat.eqb (fst p) (fst q) && Nat.eqb (snd p) (snd q)) l with Some i => i | None => 0 end.
Lemma pos_of_at l1 p l2 : ~ In p l1 -> pos_of (l1 ++ p :: l2) p = length l1.
Proof.
  intros NI. unfold pos_of. destruct p as [a b]. simpl.
  assert (E : find_pos (fun q => (a =? fst q) && (b =? snd q)) (l1 ++ (a, b) :: l2) = Some (length l1)).
  { induction l1 as [|[c d] l1 IH]; simpl. rewrite !Nat.eqb_refl. auto.
    destruct (Nat.eqb_spec a c), (Nat.eqb_spec b d); simpl; try (rewrite IH; auto; intros I; apply NI; simpl; auto; fail).
    exfalso. apply NI. left. congruence. }
  rewrite E. auto.
Qed.
Lemma pos_of_lt l1 p l2 : In p l1 -> pos_of (l1 ++ l2) p < length l1.
Proof.
  intros I. unfold pos_of. destruct p as [a b]. simpl.
  assert (E : exists i, find_pos (fun q => (a =? fst q) && (b =? snd q)) (l1 ++ l2) = Some i /\ i < length l1).
  { induction l1 as [|[c d] l1 IH]; simpl in *. contradiction.
    destruct ((a =? c) && (b =? d)) eqn:Q. exists 0. split; auto; lia.
    destruct I as [[= -> ->]|I]. rewrite !Nat.eqb_refl in Q. discriminate.
    destruct (IH I) as (i & E & L). rewrite E. exists (S i). split; auto; lia. }
  destruct E as (i & E & L). rewrite E. auto.
Qed.

(** the state outside the nodes *)
Definition mframe {N : num} (s s' : gst (N:=N)) : Prop :=
  g_cl s' = g_cl s /\ g_pool s' = g_pool s /\ g_last s' = g_last s /\ g_iters s' = g_iters s.
Lemma mframe_refl {N : num} (s : gst (N:=N)) : mframe s s.
Proof. unfold mframe; auto. Qed.
Lemma mframe_trans {N : num} (s1 s2 s3 : gst (N:=N)) : mframe s1 s2 -> mframe s2 s3 -> mframe s1 s3.
Proof. unfold mframe. intros (A & B & C & D) (A' & B' & C' & D'). splits; congruence. Qed.

Section Run.
  Context {N : num} (OK : num_ok N).
  Variable H : nat -> func N.
  Hypothesis HG : goods H.
  Notation gst := (gst (N:=N)).
  Notation conn := (conn (N:=N)).
  Implicit Types s : gst.
  Notation core := (core H).
  Add Field NFieldRun : (ok_field N OK).

  Variable fs : list nat.
  Variable s0 : gst.
  Hypothesis C0 : core s0 fs.
  Hypothesis CS0 : clus s0.
  Hypothesis CL0 : clean s0.
  Hypothesis EV0 : evened s0.

  Notation sz := (szn s0).
  Notation adj := (adjb s0).
  Notation psi := (psi H s0).
  Notation u := (uw H s0).

  (** an assignment of the unobserved nodes with a positive weight *)
  Variable x : nat -> nat.
  Hypothesis X1 : forall a, a < gsize s0 -> g_ev s0 a = None -> x a < sz a /\ (n0 < u a (x a))%num.
  Hypothesis X2 : forall a b, adj a b = true -> (n0 < psi a b (x a) (x b))%num.

  Definition nbs a : list nat := keys (gsize s0) (nd_act (g_node s0 a)).
  Lemma nbs_In a b : In b (nbs a) <-> adj a b = true.
  Proof.
    unfold nbs. rewrite keys_In, adjb_eact. split. intros [_ E]; auto. intros [c E]. split; eauto.
    apply (co_act _ _ _ C0) in E. apply link_lt in E. tauto.
  Qed.
  Lemma adj_sym a b : adj a b = adj b a.
  Proof. eapply adjb_sym; eauto. Qed.
  Lemma adj_irr a : adj a a = false.
  Proof. eapply adjb_irr; eauto. Qed.
  Lemma adj_facts a b : adj a b = true -> a <> b /\ a < gsize s0 /\ b < gsize s0 /\ g_ev s0 a = None /\ g_ev s0 b = None /\ sz a = sz b.
  Proof.
    intros A. pose proof A as B. apply adjb_eact in B. destruct (CL0 a b B) as [E1 E2]. destruct B as [c B].
    pose proof (co_act _ _ _ C0 _ _ _ B) as L. pose proof (link_lt _ _ _ _ _ _ L). destruct L as (NE & _ & va & vb & Ha & Hb & _).
    rewrite (szn_at _ _ _ Ha), (szn_at _ _ _ Hb). splits; auto; try tauto. eapply EV0; eauto.
  Qed.

  (** message sent by [a] to [b] *)
  Definition has s a b : Prop := exists c m, act s b a = Some c /\ c_msg c = Some m.
  Definition mval s a b j : N :=
    match act s b a with Some c => match c_msg c with Some m => uval m j | None => n0 end | None => n0 end.

  Definition mgood s : Prop := forall a b c m vb, act s b a = Some c -> c_msg c = Some m -> var_at s0 b vb ->
    unary vb m /\ unary_nonneg vb m /\ (n0 < uval m (x b))%num.

  Definition st s : Prop := keeps H s0 s /\ mgood s.
  Definition allm s (S : list nat) : Prop := forall a, In a S -> exists m, nd_merged (g_node s a) = Some m.

  Definition cal k s a b : Prop := exists c, (n0 < c)%num /\ forall j, j < sz b ->
    mval s a b j = (c * bigL k (fun i => u a i * prodL (fun z => mval s z a i) (filter (fun z => negb (Nat.eqb z b)) (nbs a)) * psi a b i j) (seq 0 (sz a)))%num.

  Lemma st_core s : st s -> core s fs.
  Proof. intros [K _]. eapply keeps_core; eauto. Qed.
  Lemma st_clus s : st s -> clus s.
  Proof. intros [K _]. eapply keeps_clus; eauto. Qed.

  Lemma has_adj s a b : st s -> has s a b -> adj a b = true.
  Proof.
    intros [K _] (c & m & E & _). rewrite adj_sym. rewrite <- (keeps_adj H s0 s) by auto. apply adjb_eact. exists c; auto.
  Qed.

  Lemma merged_ok s a m va : st s -> a < gsize s0 -> g_ev s0 a = None -> var_at s0 a va -> nd_merged (g_node s a) = Some m ->
    scaled va m (u a).
  Proof.
    intros S L E Ha Em. pose proof (st_core s S) as C. destruct S as [K _].
    assert (Q : scaled va m (uw H s a)).
    { eapply merged_for_scaled; eauto.
      - rewrite (kp_ev _ _ _ K). auto.
      - unfold var_at. rewrite (kp_vars _ _ _ K). auto.
      - exists (x a). destruct (X1 a L E) as [A B]. rewrite (szn_at _ _ _ Ha) in A. split; auto. rewrite (keeps_uw H s0 s) by auto.
        apply (nlt_neq' OK); auto.
      - apply (co_merged _ _ _ C); auto. rewrite (kp_ev _ _ _ K). auto. }
    destruct Q as (Q1 & Q2 & (c & Pc & Q3) & Q4). split; auto. split; auto. split; auto. exists c. split; auto.
    intros i Li. rewrite Q3, (keeps_uw H s0 s); auto.
  Qed.

  (** {1 Dependencies} *)
  Lemma deps_perm t : entry_ok s0 t ->
    Permutation (map fst (t_deps t)) (filter (fun z => negb (Nat.eqb z (t_rcv t))) (nbs (t_snd t))).
  Proof.
    intros (_ & ND & D). apply NoDup_Permutation; auto.
    - apply NoDup_filter. apply keys_NoDup.
    - intros k. rewrite filter_In, nbs_In, negb_true_iff, Nat.eqb_neq, in_map_iff. split.
      + intros ((k' & w) & <- & I). apply D in I as [Nk (d & E & _)]. simpl. split; auto. apply adjb_eact. exists d; auto.
      + intros [A Nk]. apply adjb_eact in A as [d A]. exists (k, c_uid d). split; auto. apply D. split; eauto.
  Qed.

  Lemma entry_st s t : st s -> entry_ok s0 t -> entry_ok s t.
  Proof. intros [K _] E. eapply entry_ok_ext; [|exact E]. intros a b. apply (keeps_uid H); auto. Qed.

  Lemma entry_adj t : entry_ok s0 t -> adj (t_snd t) (t_rcv t) = true.
  Proof. intros ((c & E & _) & _). rewrite adj_sym. apply adjb_eact. exists c; auto. Qed.

  Lemma dep_messages_ok s snd l : (forall k w, In (k, w) l -> exists c, act s snd k = Some c /\ c_uid c = w) ->
    (forall k, In k (map fst l) -> has s k snd) ->
    exists ms, dep_messages s snd l = Ok (Some ms) /\ (forall m, In m ms -> exists k c, act s snd k = Some c /\ c_msg c = Some m) /\
      forall j, prodL (fun m => uval m j) ms = prodL (fun z => mval s z snd j) (map fst l).
  Proof.
    induction l as [|[k w] l IH]; intros D Hs.
    - exists []. splits; auto. intros m [].
    - destruct IH as (ms & E1 & E2 & E3). { intros; apply D; simpl; auto. } { intros; apply Hs; simpl; auto. }
      destruct (D k w (or_introl eq_refl)) as (c & Ec & Eu). destruct (Hs k (or_introl eq_refl)) as (c' & m & Ec' & Em).
      assert (c' = c) by congruence. subst c'. simpl. unfold deref. rewrite Ec, Eu, Nat.eqb_refl. cbn [rbind]. rewrite Em, E1. cbn [rbind].
      exists (m :: ms). splits; auto.
      + intros m' [<-|I]; eauto.
      + intros j. simpl. rewrite E3. unfold mval at 2. rewrite Ec, Em. auto.
  Qed.

  Lemma can_update_ok s snd l : (forall k w, In (k, w) l -> exists c, act s snd k = Some c /\ c_uid c = w) ->
    exists b, can_update s snd l = Ok b /\ (b = true -> forall k, In k (map fst l) -> has s k snd) /\
      (b = false -> exists k, In k (map fst l) /\ ~ has s k snd).
  Proof.
    induction l as [|[k w] l IH]; intros D.
    - exists true. splits; auto. intros _ k []. discriminate.
    - destruct IH as (b & E1 & E2 & E3). { intros; apply D; simpl; auto. }
      destruct (D k w (or_introl eq_refl)) as (c & Ec & Eu). simpl. unfold deref. rewrite Ec, Eu, Nat.eqb_refl. cbn [rbind].
      destruct (c_msg c) as [m|] eqn:Em.
      + exists b. splits; auto.
        * intros B k' [<-|I]; auto. exists c, m; auto.
        * intros B. destruct (E3 B) as (k' & I & Nh). exists k'. auto.
      + exists false. splits; auto. discriminate. intros _. exists k. split; auto. intros (c' & m & Ec' & Em'). congruence.
  Qed.

  Lemma st_deps s t : st s -> entry_ok s0 t -> forall k w, In (k, w) (t_deps t) -> exists c, act s (t_snd t) k = Some c /\ c_uid c = w.
  Proof. intros S E k w I. apply (entry_st s t S) in E as (_ & _ & D). apply D in I. tauto. Qed.

  (** {1 One message} *)
  Lemma set_act_msg_spec s a b c m : act s a b = Some c -> exists s', set_act_msg s a b m = Ret tt s' /\
    mframe s s' /\ (forall y, nd_merged (g_node s' y) = nd_merged (g_node s y)) /\
    act s' a b = Some (with_msg c m) /\ (forall y z, (y, z) <> (a, b) -> act s' y z = act s y z).
  Proof.
    intros E. unfold set_act_msg. rewrite E. eexists. split; [reflexivity|]. split; [unfold mframe; auto|]. split; [|split].
    - intros y. simpl. unfold fupd. destruct (Nat.eqb_spec y a); subst; auto.
    - unfold act. simpl. unfold fupd at 1. rewrite Nat.eqb_refl. simpl. unfold fupd. rewrite Nat.eqb_refl. auto.
    - intros y z NE. unfold act. simpl. unfold fupd. destruct (Nat.eqb_spec y a); subst; auto. simpl.
      destruct (Nat.eqb_spec z b); subst; auto. congruence.
  Qed.

  Lemma keeps_set_msg s a b c m s' : act s a b = Some c -> set_act_msg s a b m = Ret tt s' -> keeps H s s'.
  Proof. intros E Q. pose proof (set_act_msg_keeps H s a b m) as K. rewrite Q in K. exact K. Qed.

  Lemma update_message_ok k s t : st s -> entry_ok s0 t -> (exists mu, nd_merged (g_node s (t_snd t)) = Some mu) ->
    (forall d, In d (map fst (t_deps t)) -> has s d (t_snd t)) ->
    exists v s', update_message H k t s = Ret (Some v) s' /\ st s' /\ mframe s s' /\
      (forall a, nd_merged (g_node s' a) = nd_merged (g_node s a)) /\
      (forall a b, (a, b) <> t_edge t -> act s' b a = act s b a) /\ has s' (t_snd t) (t_rcv t) /\
      (floored H s0 k -> cal k s' (t_snd t) (t_rcv t)).
  Proof.
    intros S E [mu Emu] Hs. pose proof (st_core s S) as C. pose proof S as [K MG].
    set (a := t_snd t) in *. set (b := t_rcv t) in *.
    pose proof (entry_adj t E) as A. fold a b in A. destruct (adj_facts a b A) as (NE & La & Lb & Ea & Eb & SZ).
    destruct (var_at_ex _ _ La) as (va & Ha). destruct (var_at_ex _ _ Lb) as (vb & Hb).
    assert (Sa : sz a = vsize va) by (apply szn_at; auto). assert (Sb : sz b = vsize vb) by (apply szn_at; auto).
    destruct (X1 a La Ea) as [Xa Pa]. destruct (X1 b Lb Eb) as [Xb Pb]. rewrite Sa in Xa. rewrite Sb in Xb.
    pose proof (merged_ok s a mu va S La Ea Ha Emu) as (Umu & Nmu & (c1 & Pc1 & V1) & _).
    destruct (dep_messages_ok s a (t_deps t) (st_deps s t S E) Hs) as (ms & Ed & Ims & Pms).
    unfold update_message. fold a. rewrite Emu, Ed. cbn [lift obind].
    assert (Ums : Forall (unary va) (mu :: ms)).
    { constructor; auto. apply Forall_forall. intros m I. destruct (Ims m I) as (z & c & Ez & Em). eapply MG; eauto. }
    assert (Nms : forall f, In f (mu :: ms) -> unary_nonneg va f).
    { intros f [<-|I]; auto. destruct (Ims f I) as (z & c & Ez & Em). eapply MG; eauto. }
    assert (Pos : (n0 < prodL (fun f => uval f (x a)) (mu :: ms))%num).
    { apply (prodL_pos OK). intros f [<-|I].
      - rewrite V1 by auto. apply (ok_mul _ OK); auto.
      - destruct (Ims f I) as (z & c & Ez & Em). eapply MG; eauto. }
    destruct (merged_unaries_ok OK va (mu :: ms) Ums ltac:(discriminate) Nms) as (c2 & mg & Pc2 & Emg & Umg & _ & _ & Vmg & (i1 & Li1 & Vi1)).
    { exists (x a). split; auto. apply (nlt_neq' OK); auto. }
    change (Some mu :: map Some ms) with (map Some (mu :: ms)). rewrite Emg. cbn [lift obind].
    destruct (entry_st s t S E) as ((c & Ec & Euid) & _). fold a b in Ec. unfold deref. fold b. rewrite Ec, Euid, Nat.eqb_refl. cbn [lift obind].
    destruct (co_act _ _ _ C _ _ _ Ec) as (_ & _ & vb' & va' & Hb' & Ha' & Ef).
    assert (VA : forall y w, var_at s y w <-> var_at s0 y w) by (intros; unfold var_at; rewrite (kp_vars _ _ _ K); tauto).
    apply VA in Ha', Hb'. rewrite (var_at_fun _ _ _ _ Ha' Ha), (var_at_fun _ _ _ _ Hb' Hb) in Ef. clear va' vb' Ha' Hb'.
    assert (X : exists y z, fvars H (c_fac c) = [y; z] /\ (va = y /\ vb = z \/ va = z /\ vb = y)).
    { destruct Ef as [Ef|Ef]; eexists _, _; split; eauto. }
    destruct X as (y & z & Ey & Ho).
    destruct (message_ok k mg (H (c_fac c)) y z va vb Umg (factor_binary H HG _ _ _ Ey) Ho ltac:(congruence)) as (m & Em & Um & _ & _ & Vm).
    rewrite Em. cbn [lift obind].
    destruct (set_act_msg_spec s b a c (Some m) Ec) as (s' & Es & F & FM & Eb' & Eo).
    pose proof (keeps_set_msg s b a c (Some m) s' Ec Es) as K'. rewrite Es. cbn [obind].
    (* the factor of the other direction *)

    assert (PS : forall i j, psi a b i j = bval (H (c_fac c)) va j i).
    { intros i j. destruct (co_act_sym _ _ _ C _ _ _ Ec) as (c' & Ec' & Ef'). rewrite <- (keeps_psi H s0 s) by auto.
      rewrite (psi_val H s a b c' va); auto. rewrite Ef'. auto. apply VA; auto. }
    assert (PN : forall i j, i < vsize va -> j < vsize vb -> (n0 <= psi a b i j)%num).
    { intros i j Li Lj. eapply psi_nonneg; eauto; lia. }
    assert (TN : forall j, j < vsize vb -> forall i, In i (seq 0 (vsize va)) -> (n0 <= uval mg i * psi a b i j)%num).
    { intros j Lj i I. apply in_seq in I. apply (nmul_nonneg OK). apply Vmg; lia. apply PN; auto; lia. }
    assert (Vm2 : forall j, j < vsize vb -> uval m j = red_update k (red_init k) (bigL k (fun i => (uval mg i * psi a b i j)%num) (seq 0 (vsize va)))).
    { intros j Lj. rewrite Vm by auto. rewrite <- (reduce_big OK) by (apply TN; auto). f_equal. apply map_ext. intros i. rewrite PS. auto. }
    assert (IN : (n0 <= red_init (N:=N) k)%num).
    { destruct k; simpl. apply (nle_refl OK). apply (nlt_le OK). apply (ok_fltmin _ OK). }
    assert (MG' : mgood s').
    { intros a2 b2 c' m' v' E1 E2 Hv. destruct (pair_dec (b2, a2) (b, a)) as [Q|Q].
      - injection Q as -> ->. rewrite Eb' in E1. injection E1 as <-. simpl in E2. injection E2 as <-.
        rewrite (var_at_fun _ _ _ _ Hv Hb). split; auto. split.
        + intros j Lj. rewrite Vm2 by auto. apply (op_nonneg OK); auto. apply (bigL_nonneg OK). apply TN; auto.
        + rewrite Vm2 by auto. apply (op_pos_r OK); auto. apply (bigL_pos OK) with (a := x a). apply TN; auto.
          apply in_seq; lia. apply (ok_mul _ OK).
          * rewrite (proj1 (Vmg (x a) Xa)). apply (ok_mul _ OK); auto.
          * apply X2; auto.
      - rewrite Eo in E1 by auto. eapply MG; eauto. }
    assert (S' : st s'). { split; auto. eapply keeps_trans; eauto. }
    assert (HS : has s' a b). { exists (with_msg c (Some m)), m. auto. }
    assert (EO : forall a2 b2, (a2, b2) <> t_edge t -> act s' b2 a2 = act s b2 a2).
    { intros a2 b2 Q. apply Eo. intros [= -> ->]. apply Q. reflexivity. }
    assert (CAL : floored H s0 k -> cal k s' a b).
    { intros FL. exists (c2 * c1)%num. split. { apply (ok_mul _ OK); auto. }
      intros j Lj. rewrite Sb in Lj. unfold mval at 1. rewrite Eb'. simpl. rewrite Vm2 by auto.
      assert (BE : bigL k (fun i => (uval mg i * psi a b i j)%num) (seq 0 (vsize va)) =
        ((c2 * c1) * bigL k (fun i => u a i * prodL (fun z => mval s' z a i) (filter (fun z => negb (Nat.eqb z b)) (nbs a)) * psi a b i j) (seq 0 (sz a)))%num).
      { rewrite <- (bigL_mul OK) by (apply (nlt_le OK), (ok_mul _ OK); auto). rewrite Sa. apply bigL_ext.
        intros i I. apply in_seq in I. rewrite (proj1 (Vmg i ltac:(lia))). simpl. rewrite V1, Pms by lia.
        rewrite (prodL_perm OK _ _ _ (deps_perm t E)). fold a b.
        rewrite (prodL_ext (fun z0 => mval s' z0 a i) (fun z0 => mval s z0 a i)). ring.
        intros z0 I0. apply filter_In in I0 as [I0 N0]. apply nbs_In in I0. unfold mval. rewrite EO; auto. unfold t_edge. fold a b.
        intros [= Q1 Q2]. congruence. }
      rewrite <- BE. destruct FL as [->|FL]; [simpl; ring|]. destruct k; simpl; [ring|].
      unfold nmax. destruct (nltb nfltmin _) eqn:Q; auto. symmetry. apply (nle_antisym OK).
      - exact Q.
      - apply (nle_trans OK _ (uval mg i1 * psi a b i1 j)%num).
        + rewrite Vi1. replace (n1 * psi a b i1 j)%num with (psi a b i1 j) by ring. apply FL; auto; lia.
        + apply (bigL_ge OK MAP (fun i => (uval mg i * psi a b i j)%num)). apply TN; auto. apply in_seq; lia. }
    destruct (c_msg c) as [old|] eqn:Eold.
    - destruct (diff_ok OK vb old m) as (d & Edf); auto. { eapply MG; eauto. }
      rewrite Edf. cbn [lift obind]. exists (VNum d), s'. splits; auto.
    - exists VMax, s'. splits; auto.
  Qed.

  (** {1 Message passing on a cluster} *)
  Section OneCluster.
    Variable S : list nat.
    Variable ts : list topo.
    Hypothesis TO : topo_ok s0 S ts.
    Hypothesis SN : NoDup S.
    Hypothesis SH : forall a, In a S -> a < gsize s0 /\ g_ev s0 a = None.
    Hypothesis SC : forall a b, In a S -> adj a b = true -> In b S.
    Variable k : kind.

    Lemma edge_In a b : In (a, b) (map t_edge ts) <-> In a S /\ adj a b = true.
    Proof. rewrite (tk_edges _ _ _ TO), adjb_eact. tauto. Qed.
    Lemma edge_snd t : In t ts -> In (t_snd t) S /\ In (t_rcv t) S /\ adj (t_snd t) (t_rcv t) = true.
    Proof.
      intros I. assert (J : In (t_snd t, t_rcv t) (map t_edge ts)) by (apply (in_map t_edge) in I; auto).
      apply edge_In in J as [J1 J2]. splits; auto. eapply SC; eauto.
    Qed.

    Record mpi (si s : gst) (done left : list topo) : Prop := {
      mi_st : st s;
      mi_fr : mframe si s;
      mi_mg : forall a, nd_merged (g_node s a) = nd_merged (g_node si a);
      mi_perm : Permutation (done ++ left) ts;
      mi_left : forall t, In t left -> ~ has s (t_snd t) (t_rcv t);
      mi_done : forall t, In t done -> has s (t_snd t) (t_rcv t) /\ (floored H s0 k -> cal k s (t_snd t) (t_rcv t));
      mi_ord : forall d1 t d2, done = d1 ++ t :: d2 -> forall z, In z (map fst (t_deps t)) -> In (z, t_snd t) (map t_edge d1);
      mi_out : forall a b, ~ In (a, b) (map t_edge ts) -> act s b a = act si b a
    }.

    Lemma cal_ext s s' a b : mval s' a b = mval s a b -> (forall z, adj a z = true -> z <> b -> mval s' z a = mval s z a) ->
      cal k s a b -> cal k s' a b.
    Proof.
      intros E1 E2 (c & Pc & V). exists c. split; auto. intros j Lj. rewrite E1, V by auto. f_equal. apply bigL_ext. intros i _.
      do 2 f_equal. apply prodL_ext. intros z I. apply filter_In in I as [I Nz]. apply nbs_In in I. apply negb_true_iff, Nat.eqb_neq in Nz.
      rewrite E2; auto.
    Qed.
    Lemma mval_ext s s' a b : act s' b a = act s b a -> mval s' a b = mval s a b.
    Proof. intros E. unfold mval. rewrite E. auto. Qed.
    Lemma has_ext s s' a b : act s' b a = act s b a -> (has s' a b <-> has s a b).
    Proof. intros E. unfold has. rewrite E. tauto. Qed.

    Lemma mp_task si s done t rest : mpi si s done (t :: rest) -> allm si S ->
      (forall z, In z (map fst (t_deps t)) -> In (z, t_snd t) (map t_edge done)) ->
      exists v s', update_message H k t s = Ret (Some v) s' /\ mpi si s' (done ++ [t]) rest.
    Proof.
      intros M AM DD. destruct M as [M1 M2 M3 M4 M5 M6 M7 M8].
      assert (It : In t ts) by (eapply Permutation_in; [exact M4|apply in_or_app; simpl; auto]).
      pose proof (tk_entry _ _ _ TO t It) as E. destruct (edge_snd t It) as (Isn & Irc & Aed).
      assert (ND : NoDup (map t_edge (done ++ t :: rest))).
      { eapply Permutation_NoDup; [apply Permutation_map; symmetry; exact M4|]. apply (tk_nd _ _ _ TO). }
      rewrite map_app in ND. simpl in ND. pose proof (NoDup_split_mid _ _ _ ND) as [ND1 ND2].
      assert (HD : forall e, In e (map t_edge done) -> has s (fst e) (snd e)).
      { intros e I. apply in_map_iff in I as (t' & <- & I). apply M6; auto. }
      destruct (update_message_ok k s t M1 E) as (v & s' & EU & S' & F' & FM & EO & HS & CL).
      { rewrite M3. apply AM; auto. }
      { intros z Iz. apply (HD (z, t_snd t)). apply DD; auto. }
      exists v, s'. split; auto.
      assert (EOd : forall e, In e (map t_edge done) -> act s' (snd e) (fst e) = act s (snd e) (fst e)).
      { intros [a b] I. apply EO. intros Q. simpl in Q. rewrite Q in I. contradiction. }
      constructor; auto.
      - eapply mframe_trans; eauto.
      - intros a. rewrite FM. auto.
      - rewrite <- app_assoc. simpl. auto.
      - intros t' I. rewrite (has_ext s s'). apply M5; simpl; auto. apply EO. intros Q. apply ND2. rewrite <- Q.
        change (t_snd t', t_rcv t') with (t_edge t'). apply in_map; auto.
      - intros t' I. apply in_app_iff in I as [I|[<-|[]]]; auto.
        pose proof (EOd (t_edge t') (in_map t_edge _ _ I)) as Q. simpl in Q. destruct (M6 t' I) as [Hh Hc]. split.
        + apply (has_ext s s'); auto.
        + intros FL. apply (cal_ext s); auto. apply mval_ext; auto.
          intros z Az Nz. apply mval_ext. apply (EOd (z, t_snd t')).
          apply in_split in I as (d1 & d2 & Ed). assert (J : In (z, t_snd t') (map t_edge d1)).
          { apply (M7 d1 t' d2 Ed). assert (It' : In t' ts).
            { eapply Permutation_in; [exact M4|]. rewrite Ed. apply in_or_app; left; apply in_or_app; simpl; auto. }
            eapply Permutation_in; [symmetry; apply deps_perm; apply (tk_entry _ _ _ TO t' It')|].
            apply filter_In. split. apply nbs_In; auto. apply negb_true_iff, Nat.eqb_neq; auto. }
          rewrite Ed, map_app. apply in_or_app; auto.
      - intros d1 t' d2 Ed z Iz. destruct (list_snoc d2) as [->|(d2' & y & ->)].
        + apply app_inj_tail in Ed as [<- <-]. apply DD; auto.
        + rewrite app_comm_cons, app_assoc in Ed. apply app_inj_tail in Ed as [Ed _]. eapply M7; eauto.
      - intros a b NI. rewrite <- M8 by auto. apply EO. intros Q. apply NI. rewrite Q. apply in_map; auto.
    Qed.

    Lemma mp_round si wait l : allm si S -> forall s done, mpi si s done (l ++ wait) ->
      (forall t z, In t l -> In z (map fst (t_deps t)) -> In (z, t_snd t) (map t_edge done)) ->
      exists s', ofold (fun t s => do (_, s) <- update_message H k t s ;; Ret tt s) l s = Ret tt s' /\ mpi si s' (done ++ l) wait.
    Proof.
      intros AM. induction l as [|t l IH]; intros s done M DD.
      - exists s. rewrite app_nil_r. auto.
      - destruct (mp_task si s done t (l ++ wait) M AM) as (v & s1 & E1 & M1). { intros; eapply DD; simpl; eauto. }
        simpl. rewrite E1. cbn [obind]. destruct (IH s1 (done ++ [t]) M1) as (s2 & E2 & M2).
        { intros t' z I J. rewrite map_app. apply in_or_app. left. eapply DD; simpl; eauto. }
        exists s2. split; auto. rewrite <- app_assoc in M2. auto.
    Qed.

    Lemma select_ok s left : st s -> (forall t, In t left -> entry_ok s0 t) -> exists ready wait, select s left = Ok (ready, wait) /\
      Permutation (ready ++ wait) left /\ (forall t z, In t ready -> In z (map fst (t_deps t)) -> has s z (t_snd t)) /\
      (forall t, In t wait -> exists z, In z (map fst (t_deps t)) /\ ~ has s z (t_snd t)).
    Proof.
      intros S0. induction left as [|t left IH]; intros E.
      - exists [], []. splits; auto; simpl; contradiction.
      - destruct IH as (ready & wait & E1 & P1 & R1 & W1); [intros; apply E; simpl; auto|].
        destruct (can_update_ok s (t_snd t) (t_deps t) (st_deps s t S0 (E t (or_introl eq_refl)))) as (b & Eb & Bt & Bf).
        simpl. rewrite Eb. cbn [rbind]. rewrite E1. cbn [rbind]. destruct b.
        + exists (t :: ready), wait. splits; auto.
          * simpl. constructor. auto.
          * intros t' z [<-|I]; auto.
        + exists ready, (t :: wait). splits; auto.
          * rewrite <- Permutation_middle. constructor. auto.
          * intros t' [<-|I]; auto.
    Qed.

    Lemma mpi_perm si s done l1 l2 : Permutation l1 l2 -> mpi si s done l1 -> mpi si s done l2.
    Proof.
      intros P [M1 M2 M3 M4 M5 M6 M7 M8]. constructor; auto.
      - rewrite <- P. auto.
      - intros t I. apply M5. eapply Permutation_in; [symmetry; exact P|auto].
    Qed.

    Lemma mp_loop_ok e pool si : env_ok e -> allm si S -> forall n s done left, length left <= n -> mpi si s done left ->
      exists b s' done' left', mp_loop H n e pool k left s = Ret b s' /\ mpi si s' done' left' /\
        (b = true -> left' = []) /\
        (b = false -> left' <> [] /\ forall t, In t left' -> exists z, In z (map fst (t_deps t)) /\ In (z, t_snd t) (map t_edge left')).
    Proof.
      intros E AM. induction n as [|n IH]; intros s done left L M.
      - destruct left as [|t left]; simpl in L; [|lia]. exists true, s, done, []. simpl. splits; auto. discriminate.
      - destruct left as [|t0 left]. { exists true, s, done, []. simpl. splits; auto. discriminate. }
        cbn [mp_loop]. set (lf := t0 :: left) in *.
        assert (EN : forall t, In t lf -> In t ts).
        { intros t I. eapply Permutation_in; [apply M|]. apply in_or_app; auto. }
        destruct (select_ok s lf (mi_st _ _ _ _ M)) as (ready & wait & E1 & P1 & R1 & W1).
        { intros t I. apply (tk_entry _ _ _ TO). auto. }
        rewrite E1. cbn [lift obind].
        (* a message that is there belongs to a task that has been executed *)
        assert (DN : forall t z, In t ts -> In z (map fst (t_deps t)) -> In (z, t_snd t) (map t_edge done) \/ In (z, t_snd t) (map t_edge lf)).
        { intros t z It Iz. destruct (edge_snd t It) as (Isn & _ & _).
          assert (J : In z (filter (fun y => negb (Nat.eqb y (t_rcv t))) (nbs (t_snd t)))).
          { eapply Permutation_in; [apply deps_perm; apply (tk_entry _ _ _ TO t It)|auto]. }
          apply filter_In in J as [J _]. apply nbs_In in J. apply in_app_iff. rewrite <- map_app.
          eapply Permutation_in; [apply Permutation_map; symmetry; apply M|]. apply edge_In. split.
          eapply SC; eauto. rewrite adj_sym; auto. }
        destruct ready as [|r0 ready].
        + exists false, s, done, lf. splits; auto. discriminate. intros _. split. discriminate.
          intros t It. simpl in P1. assert (Iw : In t wait) by (eapply Permutation_in; [symmetry; exact P1|auto]).
          destruct (W1 t Iw) as (z & Iz & Nh). exists z. split; auto.
          destruct (DN t z (EN t It) Iz) as [D|D]; auto. exfalso. apply Nh.
          apply in_map_iff in D as (t' & Q & D). apply (mi_done _ _ _ _ M) in D as [D _]. unfold t_edge in Q. injection Q as <- <-. auto.
        + set (rd := r0 :: ready) in *.
          assert (Mr : mpi si s done (schedule e pool rd ++ wait)).
          { eapply mpi_perm; [|exact M]. rewrite <- P1. apply Permutation_app_tail. symmetry. apply schedule_perm; auto. }
          destruct (mp_round si wait (schedule e pool rd) AM s done Mr) as (s1 & E2 & M1).
          { intros t z It Iz. apply (Permutation_in _ (schedule_perm e pool rd E)) in It.
            assert (Il : In t lf) by (eapply Permutation_in; [exact P1|apply in_or_app; auto]).
            destruct (DN t z (EN t Il) Iz) as [D|D]; auto. exfalso. pose proof (R1 t z It Iz) as Hh.
            apply in_map_iff in D as (t' & Q & D). apply (mi_left _ _ _ _ M) in D. injection Q as Q1 Q2. rewrite Q1, Q2 in D. auto. }
          rewrite E2. cbn [obind]. destruct (IH s1 (done ++ schedule e pool rd) wait) as (b & s2 & d2 & l2 & E3 & M2 & B1 & B2); auto.
          { apply Permutation_length in P1. rewrite app_length in P1. simpl in P1, L. simpl in *. lia. }
          exists b, s2, d2, l2. splits; auto.
    Qed.

    (** all the messages have been computed *)
    Definition mrank (done : list topo) a b : nat := pos_of (map t_edge done) (a, b).
    Lemma mp_ranked si s done : mpi si s done [] -> ranked adj (mrank done) S.
    Proof.
      intros M a b z Ia Ib Iz Aab Aza Nz. pose proof (mi_perm _ _ _ _ M) as P. rewrite app_nil_r in P.
      assert (J : In (a, b) (map t_edge done)).
      { eapply Permutation_in; [apply Permutation_map; symmetry; exact P|]. apply edge_In; auto. }
      apply in_map_iff in J as (t & Et & It). apply in_split in It as (d1 & d2 & Ed).
      assert (ND : NoDup (map t_edge done)).
      { eapply Permutation_NoDup; [apply Permutation_map; symmetry; exact P|]. apply (tk_nd _ _ _ TO). }
      assert (Its : In t ts). { eapply Permutation_in; [exact P|]. rewrite Ed. apply in_or_app; simpl; auto. }
      injection Et as Ea Eb. unfold mrank. rewrite Ed, map_app in *. simpl map in *.
      assert (J : In (z, a) (map t_edge d1)).
      { rewrite <- Ea. apply (mi_ord _ _ _ _ M d1 t d2 eq_refl). eapply Permutation_in; [symmetry; apply deps_perm; apply (tk_entry _ _ _ TO t Its)|].
        apply filter_In. rewrite Ea, Eb. split. apply nbs_In. rewrite adj_sym; auto. apply negb_true_iff, Nat.eqb_neq; auto. }
      apply NoDup_split_mid in ND as [ND _]. replace (a, b) with (t_edge t) by (unfold t_edge; congruence).
      rewrite (pos_of_at (map t_edge d1) (t_edge t)) by auto.
      pose proof (pos_of_lt (map t_edge d1) (z, a) (t_edge t :: map t_edge d2) J). lia.
    Qed.

    Lemma nbs_nb a : In a S -> Permutation (nbs a) (nb adj S a).
    Proof.
      intros Ia. apply NoDup_Permutation. apply keys_NoDup. apply NoDup_filter; auto.
      intros z. rewrite nbs_In. unfold nb. rewrite filter_In. split; [|tauto]. intros A. split; auto. eapply SC; eauto.
    Qed.
    Lemma cal_fixp s : (forall a b, In a S -> adj a b = true -> cal k s a b) -> fixp k sz adj psi (mval s) u S.
    Proof.
      intros F a b Ia Ib A. destruct (F a b Ia A) as (c & Pc & V). exists c. split; auto. intros j Lj. rewrite V by auto. f_equal.
      apply bigL_ext. intros i _. do 2 f_equal. apply (prodL_perm OK). apply filter_perm. apply nbs_nb; auto.
    Qed.
    Lemma mp_fixp si s done : mpi si s done [] -> floored H s0 k -> fixp k sz adj psi (mval s) u S.
    Proof.
      intros M FL. apply cal_fixp. intros a b Ia A. pose proof (mi_perm _ _ _ _ M) as P. rewrite app_nil_r in P.
      assert (J : In (a, b) (map t_edge done)).
      { eapply Permutation_in; [apply Permutation_map; symmetry; exact P|]. apply edge_In; auto. }
      apply in_map_iff in J as (t & [= <- <-] & It). apply (mi_done _ _ _ _ M); auto.
    Qed.
    Lemma mp_has si s done : mpi si s done [] -> forall a b, In a S -> adj a b = true -> has s a b.
    Proof.
      intros M a b Ia A. pose proof (mi_perm _ _ _ _ M) as P. rewrite app_nil_r in P.
      assert (J : In (a, b) (map t_edge done)).
      { eapply Permutation_in; [apply Permutation_map; symmetry; exact P|]. apply edge_In; auto. }
      apply in_map_iff in J as (t & [= <- <-] & It). apply (mi_done _ _ _ _ M); auto.
    Qed.
    Lemma mp_acyclic si s done : mpi si s done [] -> forall c, cycle (eact s0) c -> incl c S -> False.
    Proof.
      intros M. apply (ranked_acyclic (eact s0) S (mrank done)). intros a b z Ia Ib Iz A1 A2. apply (mp_ranked si s done M); auto; apply adjb_eact; auto.
    Qed.
    Lemma mp_stuck si s done left : mpi si s done left -> left <> [] ->
      (forall t, In t left -> exists z, In z (map fst (t_deps t)) /\ In (z, t_snd t) (map t_edge left)) ->
      exists c, cycle (eact s0) c /\ incl c S.
    Proof.
      intros M NE ST. pose proof (mi_perm _ _ _ _ M) as P.
      assert (IT : forall t, In t left -> In t ts). { intros t I. eapply Permutation_in; [exact P|]. apply in_or_app; auto. }
      apply (stuck_cycle (eact s0)) with (L := map t_edge left).
      - intros a Q. apply adjb_eact in Q. rewrite adj_irr in Q. discriminate.
      - destruct left; simpl; congruence.
      - intros a b I. apply in_map_iff in I as (t & [= <- <-] & I). destruct (edge_snd t (IT t I)) as (A1 & A2 & A3). splits; auto. apply adjb_eact; auto.
      - intros a b I. apply in_map_iff in I as (t & [= <- <-] & I). destruct (ST t I) as (z & Iz & J). exists z. split; auto.
        apply (Permutation_in _ (deps_perm t (tk_entry _ _ _ TO t (IT t I)))) in Iz. apply filter_In in Iz as [_ Iz].
        apply negb_true_iff, Nat.eqb_neq in Iz. auto.
    Qed.
  End OneCluster.

  (** {1 The clusters} *)
  Notation nds := (map cl_nodes (g_cl s0)).
  Lemma nds_facts S : In S nds -> NoDup S /\ S <> [] /\ (forall a, In a S -> a < gsize s0 /\ g_ev s0 a = None) /\
    (forall a b, In a S -> adj a b = true -> In b S).
  Proof.
    intros I. apply in_map_iff in I as (cl & <- & I). pose proof (cs_comp _ CS0) as CC. splits.
    - pose proof (clus_nodup s0 CS0) as ND. apply in_split in I as (l1 & l2 & El). rewrite El in ND.
      rewrite map_app, concat_app in ND. simpl in ND. apply NoDup_app_parts in ND as [_ ND]. apply NoDup_app_parts in ND. tauto.
    - apply (cp_ne _ _ _ CC). apply in_map; auto.
    - intros a Ia. eapply clus_hidden; eauto.
    - intros a b Ia A. apply (cp_closed _ _ _ CC (cl_nodes cl) a b); auto. apply in_map; auto. apply adjb_eact; auto.
      apply hid_In. apply adj_facts in A. tauto.
  Qed.
  Lemma nds_disjoint i j Si Sj a : nth_error nds i = Some Si -> nth_error nds j = Some Sj -> In a Si -> In a Sj -> i = j.
  Proof. intros Hi Hj Ia Ja. eapply (nodup_concat_index nds); eauto. apply clus_nodup; auto. Qed.
  Lemma nds_all a : a < gsize s0 -> g_ev s0 a = None -> exists i S, nth_error nds i = Some S /\ In a S.
  Proof.
    intros L E. destruct (clus_has s0 a CS0 L E) as (i & cl & Hi & Ia). exists i, (cl_nodes cl). split; auto. rewrite nth_error_map, Hi. auto.
  Qed.
  Lemma st_nds s : st s -> map cl_nodes (g_cl s) = nds.
  Proof. intros [K _]. apply K. Qed.
  Lemma topo_s0 s S ts : st s -> topo_ok s S ts -> topo_ok s0 S ts.
  Proof. intros [K _] T. eapply topo_ok_ext; [|exact T]. intros a b _. symmetry. apply (keeps_uid H); auto. Qed.

  (** merged factors never disappear *)
  Definition mgrow s s' : Prop := forall a m, nd_merged (g_node s a) = Some m -> exists m', nd_merged (g_node s' a) = Some m'.
  Lemma mgrow_refl s : mgrow s s.
  Proof. intros a m E. eauto. Qed.
  Lemma mgrow_trans s1 s2 s3 : mgrow s1 s2 -> mgrow s2 s3 -> mgrow s1 s3.
  Proof. intros A B a m E. destruct (A a m E) as [m' E']. eauto. Qed.
  Lemma mgrow_eq s s' : (forall a, nd_merged (g_node s' a) = nd_merged (g_node s a)) -> mgrow s s'.
  Proof. intros E a m Q. exists m. rewrite E; auto. Qed.
  Lemma allm_grow s s' S : mgrow s s' -> allm s S -> allm s' S.
  Proof. intros G A a I. destruct (A a I) as [m E]. eauto. Qed.

  Definition same_act s s' : Prop := forall a b, act s' a b = act s a b.

  Lemma update_merged_ok e a s : env_ok e -> st s -> a < gsize s0 -> g_ev s0 a = None ->
    exists s', update_merged H e a s = Ret tt s' /\ st s' /\ mframe s s' /\ same_act s s' /\ mgrow s s' /\ allm s' [a].
  Proof.
    intros E S L Ev. pose proof (st_core s S) as C. pose proof S as [K MG]. destruct (var_at_ex _ _ L) as (va & Ha).
    destruct (X1 a L Ev) as [Xa Pa]. rewrite (szn_at _ _ _ Ha) in Xa.
    destruct (merge_scaled OK H HG s fs e a va C E) as (m & Em & _).
    { rewrite (kp_ev _ _ _ K). auto. } { unfold var_at. rewrite (kp_vars _ _ _ K). auto. }
    { exists (x a). split; auto. rewrite (keeps_uw H s0 s) by auto. apply (nlt_neq' OK); auto. }
    rewrite update_merged_eq, Em. cbn [lift obind]. eexists. split; [reflexivity|].
    assert (SA : same_act s (set_merged s a m)).
    { intros y z. unfold act. simpl. unfold fupd. destruct (Nat.eqb_spec y a); subst; auto. }
    splits; auto.
    - split. eapply keeps_trans; [exact K|]. apply set_merged_keeps. exists e; auto.
      intros a2 b2 c2 m2 v2. rewrite SA. apply MG.
    - unfold mframe; auto.
    - intros y my. simpl. unfold fupd. destruct (Nat.eqb_spec y a); subst; simpl; eauto.
    - intros y [<-|[]]. simpl. unfold fupd. rewrite Nat.eqb_refl. simpl. eauto.
  Qed.

  Definition quiet s s' : Prop := same_act s s' /\ mgrow s s' /\ mframe s s'.
  Lemma quiet_refl s : quiet s s.
  Proof. split; [|split]. intros a b; auto. apply mgrow_refl. apply mframe_refl. Qed.
  Lemma quiet_trans s1 s2 s3 : quiet s1 s2 -> quiet s2 s3 -> quiet s1 s3.
  Proof.
    intros (A & B & C) (A' & B' & C'). split; [|split]. intros a b. rewrite A', A; auto. eapply mgrow_trans; eauto. eapply mframe_trans; eauto.
  Qed.

  Lemma topo_loop_st e nodes : env_ok e -> (forall a, In a nodes -> a < gsize s0 /\ g_ev s0 a = None) -> forall acc s, st s ->
    exists ts s', topo_loop H e nodes acc s = Ret ts s' /\ st s' /\ quiet s s' /\ allm s' nodes.
  Proof.
    intros E. induction nodes as [|a nodes IH]; intros HN acc s S.
    - exists acc, s. splits; auto. apply quiet_refl. intros a [].
    - destruct (HN a (or_introl eq_refl)) as [La Ea].
      destruct (update_merged_ok e a s E S La Ea) as (s1 & E1 & S1 & F1 & A1 & G1 & M1). cbn [topo_loop]. rewrite E1. cbn [obind].
      destruct (sender_topo_ok H s1 fs e a (st_core s1 S1) E) as (ts1 & Et & _). rewrite Et. cbn [lift obind].
      destruct (IH ltac:(intros; apply HN; simpl; auto) (acc ++ ts1) s1 S1) as (ts & s2 & E2 & S2 & Q2 & M2).
      exists ts, s2. split; auto. split; auto. split. { eapply quiet_trans; eauto. split; auto. }
      intros b [<-|I]; auto. destruct (M1 a (or_introl eq_refl)) as [m Em]. destruct Q2 as (_ & G2 & _). eauto.
  Qed.

  Lemma get_cl_ok s i S : st s -> nth_error nds i = Some S -> exists cl, get_cl s i = Ok cl /\ nth_error (g_cl s) i = Some cl /\ cl_nodes cl = S.
  Proof.
    intros St Hi. rewrite <- (st_nds s St) in Hi. rewrite nth_error_map in Hi. unfold get_cl, vget.
    destruct (nth_error (g_cl s) i) as [cl|]; simpl in Hi; [|discriminate]. exists cl. splits; auto. congruence.
  Qed.

  Lemma prepare_ok e i s S : env_ok e -> st s -> nth_error nds i = Some S ->
    exists s', prepare H e i s = Ret tt s' /\ st s' /\ same_act s s' /\ mgrow s s' /\ allm s' S /\
      g_pool s' = g_pool s /\ g_last s' = g_last s /\ g_iters s' = g_iters s /\
      exists cl ts, nth_error (g_cl s') i = Some cl /\ cl_nodes cl = S /\ cl_topo cl = Some ts.
  Proof.
    intros E St Hi. destruct (get_cl_ok s i S St Hi) as (cl & Eg & Hn & En).
    destruct (nds_facts S (nth_error_In _ _ Hi)) as (SN & NE & SH & SC).
    pose proof (prepare_keeps H fs e i s E (st_core s St) (st_clus s St)) as KP.
    unfold prepare in *. rewrite Eg in *. cbn [lift obind] in *. destruct (cl_topo cl) as [ts|] eqn:Et.
    - destruct (ofold_inv (fun a s => match nd_merged (g_node s a) with None => update_merged H e a s | Some _ => Ret tt s end)
        (fun done s' => st s' /\ quiet s s' /\ allm s' done) (e_ord e (gsize s) (cl_nodes cl)) s) as (s' & E1 & S1 & Q1 & M1).
      + splits; auto. apply quiet_refl. intros a [].
      + intros done a rest s1 El (S1 & Q1 & M1).
        assert (Ia : In a S). { rewrite <- En. apply (ord_In e (gsize s) (cl_nodes cl) a E). rewrite El. apply in_or_app; simpl; auto. }
        destruct (nd_merged (g_node s1 a)) as [m|] eqn:Em.
        * exists s1. splits; auto. intros b I. apply in_app_iff in I as [I|[<-|[]]]; eauto.
        * destruct (SH a Ia) as [La Ea]. destruct (update_merged_ok e a s1 E S1 La Ea) as (s2 & E2 & S2 & F2 & A2 & G2 & M2).
          exists s2. splits; auto. eapply quiet_trans; eauto. split; auto.
          intros b I. apply in_app_iff in I as [I|[<-|[]]]. destruct (M1 b I) as [m Eb]. eauto. apply M2; simpl; auto.
      + exists s'. destruct Q1 as (A1 & G1 & F1 & F2 & F3 & F4). splits; auto.
        * intros a Ia. apply M1. apply ord_In; auto. rewrite En; auto.
        * rewrite F1. eauto.
    - unfold update_connectivity in *. rewrite Eg in *. cbn [lift obind] in *. rewrite En in *.
      destruct (topo_loop_st e (e_ord e (gsize s) S) E) with (acc := @nil topo) (s := s) as (ts & s1 & E1 & S1 & Q1 & M1); auto.
      { intros a Ia. apply ord_In in Ia; auto. }
      rewrite E1 in *. cbn [obind] in *. eexists. split; [reflexivity|]. simpl in KP. destruct Q1 as (A1 & G1 & F1 & F2 & F3 & F4).
      assert (S' : st (set_cl s1 (lset (g_cl s1) i {| cl_nodes := S; cl_topo := Some ts |}))).
      { split. eapply keeps_trans; [apply St|exact KP]. intros a b c m v. apply S1. }
      splits; auto.
      + intros a Ia. apply M1. apply ord_In; auto.
      + exists (mkCl S (Some ts)), ts. simpl. splits; auto. apply nth_error_lset_eq. rewrite F1. eapply nth_error_lt; eauto.
  Qed.

  (** {1 Reset of the messages} *)
  Definition cleared s a b : Prop := forall c, act s a b = Some c -> c_msg c = None.
  Lemma clear_step s a b c : keeps H s0 s -> act s a b = Some c -> exists s', set_act_msg s a b None = Ret tt s' /\ keeps H s0 s' /\ mframe s s' /\
    mgrow s s' /\ cleared s' a b /\ (forall y z, cleared s y z -> cleared s' y z).
  Proof.
    intros St E. destruct (set_act_msg_spec s a b c None E) as (s' & Es & F & FM & Eb & Eo).
    pose proof (keeps_set_msg s a b c None s' E Es) as K. exists s'. split; auto.
    assert (CL : cleared s' a b). { intros c' Q. rewrite Eb in Q. injection Q as <-. auto. }
    splits; auto.
    - eapply keeps_trans; eauto.
    - apply mgrow_eq; auto.
    - intros y z Q. destruct (pair_dec (y, z) (a, b)) as [R|R]. injection R as -> ->; auto. intros c' E'. rewrite Eo in E' by auto. auto.
  Qed.

  Lemma reset_messages_ok e s : env_ok e -> keeps H s0 s -> exists s', reset_messages e s = Ret tt s' /\ st s' /\ mframe s s' /\ mgrow s s' /\
    forall a b, ~ has s' a b.
  Proof.
    intros E St. unfold reset_messages.
    set (R := fun s' => keeps H s0 s' /\ mframe s s' /\ mgrow s s').
    assert (R0 : R s). { split; auto. split. apply mframe_refl. apply mgrow_refl. }
    assert (IN : forall a s1, R s1 -> exists s2, ofold (fun b s => set_act_msg s a b None) (e_ord e a (keys (gsize s1) (nd_act (g_node s1 a)))) s1 = Ret tt s2 /\
      R s2 /\ (forall b, cleared s2 a b) /\ (forall y z, cleared s1 y z -> cleared s2 y z)).
    { intros a s1 (S1 & F1 & G1).
      destruct (ofold_inv (fun b s => set_act_msg s a b None)
        (fun done s2 => R s2 /\ (forall b, option_map c_key (act s2 a b) = option_map c_key (act s1 a b)) /\ (forall b, In b done -> cleared s2 a b) /\ (forall y z, cleared s1 y z -> cleared s2 y z))
        (e_ord e a (keys (gsize s1) (nd_act (g_node s1 a)))) s1) as (s2 & E2 & R2 & K2 & D2 & M2).
      - splits; auto. split; auto. intros b [].
      - intros done b rest s2 El ((S2 & F2 & G2) & K2 & D2 & M2).
        assert (Ib : In b (keys (gsize s1) (nd_act (g_node s1 a)))). { apply (ord_In e a _ b E). rewrite El. apply in_or_app; simpl; auto. }
        apply keys_In in Ib as (_ & c1 & Ec1). change (act s1 a b = Some c1) in Ec1. pose proof (K2 b) as Q. rewrite Ec1 in Q.
        destruct (act s2 a b) as [c2|] eqn:Ec2; [|discriminate].
        destruct (clear_step s2 a b c2 S2 Ec2) as (s3 & E3 & S3 & F3 & G3 & C3 & M3). exists s3. split; auto. splits; auto.
        + split; auto. split. eapply mframe_trans; eauto. eapply mgrow_trans; eauto.
        + intros b'. rewrite <- K2. apply (kp_act H s2 s3). eapply keeps_set_msg; eauto.
        + intros b' I. apply in_app_iff in I as [I|[<-|[]]]; auto.
      - exists s2. splits; auto. intros b c Q. destruct (D2 b) with (c := c); auto.
        apply ord_In; auto. pose proof (K2 b) as K. rewrite Q in K. destruct (act s1 a b) as [c1|] eqn:E1; [|discriminate].
        apply keys_In. split. pose proof (co_act _ _ _ (keeps_core H s0 s1 fs S1 C0) _ _ _ E1) as Lk. apply link_lt in Lk. tauto. exists c1. auto. }
    assert (MID : forall nodes s1, R s1 -> exists s2, ofold (fun a s => ofold (fun b s => set_act_msg s a b None) (e_ord e a (keys (gsize s) (nd_act (g_node s a)))) s) nodes s1 = Ret tt s2 /\
      R s2 /\ (forall a b, In a nodes -> cleared s2 a b) /\ (forall y z, cleared s1 y z -> cleared s2 y z)).
    { induction nodes as [|a nodes IH]; intros s1 R1.
      - exists s1. splits; auto. simpl; tauto.
      - simpl. destruct (IN a s1 R1) as (s2 & E2 & R2 & D2 & M2). rewrite E2. cbn [obind].
        destruct (IH s2 R2) as (s3 & E3 & R3 & D3 & M3). exists s3. splits; auto. intros a' b [<-|I]; auto. }
    assert (OUT : forall cls s1, R s1 -> exists s2, ofold (fun cl s => ofold (fun a s => ofold (fun b s => set_act_msg s a b None) (e_ord e a (keys (gsize s) (nd_act (g_node s a)))) s) (e_ord e (gsize s) (cl_nodes cl)) s) cls s1 = Ret tt s2 /\
      R s2 /\ (forall cl a b, In cl cls -> In a (cl_nodes cl) -> cleared s2 a b) /\ (forall y z, cleared s1 y z -> cleared s2 y z)).
    { induction cls as [|cl cls IH]; intros s1 R1.
      - exists s1. splits; auto. simpl; tauto.
      - simpl. destruct (MID (e_ord e (gsize s1) (cl_nodes cl)) s1 R1) as (s2 & E2 & R2 & D2 & M2). rewrite E2. cbn [obind].
        destruct (IH s2 R2) as (s3 & E3 & R3 & D3 & M3). exists s3. splits; auto. intros cl' a b [<-|I] Ia; eauto.
        apply M3. apply D2. apply ord_In; auto. }
    destruct (OUT (g_cl s) s R0) as (s' & E' & (S' & F' & G') & D' & _). exists s'.
    assert (NH : forall a b, ~ has s' a b).
    { intros a b Hh. assert (A : adj a b = true).
      { destruct Hh as (c & m & Ec & _). rewrite adj_sym. rewrite <- (keeps_adj H s0 s' b a S'). apply adjb_eact. exists c; auto. }
      destruct (adj_facts a b A) as (_ & La & Lb & Ea & Eb & _).
      destruct (clus_has s b (keeps_clus H s0 s St CS0)) as (i & cl & Hi & Ib). rewrite (keeps_size H s0 s); auto. rewrite (kp_ev _ _ _ St); auto.
      destruct Hh as (c & m & Ec & Em). rewrite (D' cl b a (nth_error_In _ _ Hi) Ib c Ec) in Em. discriminate. }
    split; [auto|]. split; [|auto]. split; auto. intros a b c m v Ec Em. exfalso. apply (NH a b). exists c, m. auto.
  Qed.

  (** {1 Loopy propagation} *)
  Section Loopy.
    Variable S : list nat.
    Variable ts : list topo.
    Hypothesis TO : topo_ok s0 S ts.
    Hypothesis SH : forall a, In a S -> a < gsize s0 /\ g_ev s0 a = None.
    Hypothesis SC : forall a b, In a S -> adj a b = true -> In b S.
    Variable k : kind.

    Definition full s : Prop := forall a b, In a S -> adj a b = true -> has s a b.
    Definition outside s s' : Prop := forall a b, ~ In a S -> act s' b a = act s b a.
    Record lst si s : Prop := {
      ls_st : st s;
      ls_fr : mframe si s;
      ls_mg : forall a, nd_merged (g_node s a) = nd_merged (g_node si a);
      ls_full : full s;
      ls_out : outside si s
    }.

    Lemma loopy_task si s t : lst si s -> allm si S -> In t ts -> exists v s', update_message H k t s = Ret (Some v) s' /\ lst si s'.
    Proof.
      intros [L1 L2 L3 L4 L5] AM It. pose proof (tk_entry _ _ _ TO t It) as E.
      assert (J : In (t_snd t, t_rcv t) (map t_edge ts)) by (apply (in_map t_edge) in It; auto).
      apply (tk_edges _ _ _ TO) in J as [Ia _].
      destruct (update_message_ok k s t L1 E) as (v & s' & EU & S' & F' & FM & EO & HS & _).
      { rewrite L3. apply AM; auto. }
      { intros z Iz. apply (Permutation_in _ (deps_perm t E)) in Iz. apply filter_In in Iz as [Iz _]. apply nbs_In in Iz.
        apply L4. eapply SC; eauto. rewrite adj_sym; auto. }
      exists v, s'. split; auto. constructor; auto.
      - eapply mframe_trans; eauto.
      - intros a. rewrite FM; auto.
      - intros a b Ja A. destruct (pair_dec (a, b) (t_edge t)) as [Q|Q]. injection Q as -> ->; auto.
        destruct (L4 a b Ja A) as (c & m & Ec & Em). exists c, m. split; auto. rewrite EO; auto.
      - intros a b Na. rewrite <- L5 by auto. apply EO. intros [= -> ->]. contradiction.
    Qed.
    Lemma loopy_tasks_ok si l : allm si S -> incl l ts -> forall v s, lst si s -> exists v' s', loopy_tasks H k l v s = Ret v' s' /\ lst si s'.
    Proof.
      intros AM. induction l as [|t l IH]; intros I v s L.
      - exists v, s. auto.
      - cbn [loopy_tasks]. destruct (loopy_task si s t L AM) as (w & s1 & E1 & L1). apply I; simpl; auto.
        rewrite E1. cbn [obind]. apply IH; auto. intros z Hz; apply I; simpl; auto.
    Qed.
    Lemma loopy_sweep_ok e pool si bs : env_ok e -> allm si S -> (forall b, In b bs -> incl b ts) -> forall v s, lst si s ->
      exists v' s', loopy_sweep H e pool k bs v s = Ret v' s' /\ lst si s'.
    Proof.
      intros E AM. induction bs as [|b bs IH]; intros I v s L.
      - exists v, s. auto.
      - cbn [loopy_sweep]. destruct (loopy_tasks_ok si (schedule e pool b) AM) with (v := v) (s := s) as (w & s1 & E1 & L1); auto.
        { intros t Ht. apply (Permutation_in _ (schedule_perm e pool b E)) in Ht. apply (I b); simpl; auto. }
        rewrite E1. cbn [obind]. apply IH; auto. intros b' Hb; apply I; simpl; auto.
    Qed.
    Lemma loopy_iter_ok e pool si bs : env_ok e -> allm si S -> (forall b, In b bs -> incl b ts) -> forall n s, lst si s ->
      exists b s', loopy_iter H n e pool k bs s = Ret b s' /\ lst si s'.
    Proof.
      intros E AM I. induction n as [|n IH]; intros s L.
      - exists false, s. auto.
      - cbn [loopy_iter]. destruct (loopy_sweep_ok e pool si bs E AM I (VNum n0) s L) as (v & s1 & E1 & L1). rewrite E1. cbn [obind].
        destruct (below_tolerance v); eauto.
    Qed.

    Lemma set_ones_ok e cl s : env_ok e -> st s -> cl_nodes cl = S -> exists s', set_ones e cl s = Ret tt s' /\ lst s s'.
    Proof.
      intros E St En. unfold set_ones. rewrite En.
      set (R := fun s' => st s' /\ mframe s s' /\ (forall a, nd_merged (g_node s' a) = nd_merged (g_node s a)) /\ outside s s').
      assert (IN : forall a v s1, In a S -> var_at s0 a v -> R s1 -> exists s2,
        ofold (fun b s => set_act_msg s a b (Some (merged_var v))) (e_ord e a (keys (gsize s1) (nd_act (g_node s1 a)))) s1 = Ret tt s2 /\
        R s2 /\ (forall b, adj a b = true -> has s2 b a) /\ (forall y z, has s1 y z -> has s2 y z)).
      { intros a v s1 Ia Hv R1. destruct (SH a Ia) as [La Ea]. destruct (X1 a La Ea) as [Xa _]. rewrite (szn_at _ _ _ Hv) in Xa.
        destruct (ofold_inv (fun b s => set_act_msg s a b (Some (merged_var v)))
          (fun done s2 => R s2 /\ (forall b, In b done -> has s2 b a) /\ (forall y z, has s1 y z -> has s2 y z))
          (e_ord e a (keys (gsize s1) (nd_act (g_node s1 a)))) s1) as (s2 & E2 & R2 & D2 & M2).
        - splits; auto. intros b [].
        - intros done b rest s2 El ((S2 & F2 & FM2 & O2) & D2 & M2).
          assert (Ib : In b (keys (gsize s1) (nd_act (g_node s1 a)))). { apply (ord_In e a _ b E). rewrite El. apply in_or_app; simpl; auto. }
          apply keys_In in Ib as (_ & c1 & Ec1). change (act s1 a b = Some c1) in Ec1. destruct R1 as ((K1 & _) & _).
          apply (keeps_act H _ _ _ _ _ K1) in Ec1 as (c0 & Ec0 & _).
          pose proof S2 as [K2 MG2]. apply (keeps_act' H _ _ _ _ _ K2) in Ec0 as (c2 & Ec2 & _).
          destruct (set_act_msg_spec s2 a b c2 (Some (merged_var v)) Ec2) as (s3 & Es & F & FM & Eb & Eo).
          pose proof (keeps_set_msg s2 a b c2 _ s3 Ec2 Es) as K3. exists s3. split; auto.
          assert (HS : has s3 b a). { exists (with_msg c2 (Some (merged_var v))), (merged_var v). auto. }
          assert (MO : forall y z, has s2 y z -> has s3 y z).
          { intros y z Hh. destruct (pair_dec (z, y) (a, b)) as [Q|Q]. injection Q as -> ->; auto. destruct Hh as (c & m & Ec & Em).
            exists c, m. rewrite Eo; auto. }
          assert (S3 : st s3).
          { split. eapply keeps_trans; eauto. intros a2 b2 c3 m2 v2 Q1 Q2 Hv2. destruct (pair_dec (b2, a2) (a, b)) as [Q|Q].
              - injection Q as -> ->. rewrite Eb in Q1. injection Q1 as <-. simpl in Q2. injection Q2 as <-.
                 rewrite (var_at_fun _ _ _ _ Hv2 Hv). unfold merged_var. rewrite mergable_dense. assert (P : 0 < vsize v) by lia. splits.
                 + apply dense_fun_unary; auto.
                 + intros i Li. rewrite dense_fun_val by auto. apply (nlt_le OK), (nlt_0_1 OK).
                 + rewrite dense_fun_val by auto. apply (nlt_0_1 OK).
              - rewrite Eo in Q1 by auto. eapply MG2; eauto. }
          split; [|split].
          + split; [exact S3|]. split; [|split].
            * eapply mframe_trans; eauto.
            * intros y. rewrite FM; auto.
            * intros y z Ny. rewrite <- O2 by auto. apply Eo. intros [= -> ->]. apply Ny. apply (SC a b Ia). apply adjb_eact. 
              apply (keeps_eact H s0 s2); auto. exists c2; auto.
          + intros b' I. apply in_app_iff in I as [I|[<-|[]]]; auto.
          + auto.
        - exists s2. splits; auto. intros b A. apply D2. apply ord_In; auto. destruct R1 as ((K1 & _) & _). rewrite (keeps_keys H s0 s1 a K1).
          apply nbs_In; auto. }
      destruct (ofold_inv (fun a s => do (v, s) <- lift (node_var s a) s ;;
          ofold (fun b s => set_act_msg s a b (Some (merged_var v))) (e_ord e a (keys (gsize s) (nd_act (g_node s a)))) s)
        (fun done s2 => R s2 /\ (forall a b, In a done -> adj a b = true -> has s2 b a)) (e_ord e (gsize s) S) s) as (s' & E' & R' & D').
      - split. unfold R; splits; auto. apply mframe_refl. intros a b _; auto. intros a b [].
      - intros done a rest s1 El (R1 & D1). assert (Ia : In a S). { apply (ord_In e (gsize s) S a E). rewrite El. apply in_or_app; simpl; auto. }
        destruct (SH a Ia) as [La Ea]. destruct (var_at_ex _ _ La) as (v & Hv).
        assert (NV : node_var s1 a = Ok v). { destruct R1 as ((K1 & _) & _). unfold node_var, vget. rewrite (kp_vars _ _ _ K1). unfold var_at in Hv. rewrite Hv. auto. }
        rewrite NV. cbn [lift obind]. destruct (IN a v s1 Ia Hv R1) as (s2 & E2 & R2 & D2 & M2). exists s2. split; auto. split; auto.
        intros a' b I A. apply in_app_iff in I as [I|[<-|[]]]; auto.
      - exists s'. split; auto. destruct R' as (R1 & R2 & R3 & R4). constructor; auto.
        intros a b Ia A. apply D'. apply ord_In; auto. eapply SC; eauto. rewrite adj_sym; auto.
    Qed.
  End Loopy.

  Lemma loopy_batch_perm l : forall sn wl b o, loopy_batch l sn wl = (b, o) -> Permutation (b ++ o) l.
  Proof.
    induction l as [|t l IH]; intros sn wl b o E; simpl in E. injection E as <- <-; auto.
    destruct (negb (pmem (t_conn t) sn) && negb (existsb (fun d => pmem d wl) (t_depconns t))).
    - destruct (loopy_batch l _ _) as [b' o'] eqn:Q. injection E as <- <-. simpl. constructor. eapply IH; eauto.
    - destruct (loopy_batch l sn wl) as [b' o'] eqn:Q. injection E as <- <-. rewrite <- Permutation_middle. constructor. eapply IH; eauto.
  Qed.
  Lemma loopy_batch_ne t l b o : loopy_batch (t :: l) [] [] = (b, o) -> b <> [].
  Proof.
    cbn [loopy_batch]. assert (Q : existsb (fun d => pmem d []) (t_depconns t) = false).
    { unfold pmem. simpl. induction (t_depconns t); simpl; auto. }
    rewrite Q. cbn [pmem existsb negb andb]. destruct (loopy_batch l _ _). intros [= <- <-]. discriminate.
  Qed.
  Lemma loopy_batches_ok n : forall l, length l <= n -> exists bs, loopy_batches n l = Ok bs /\ Permutation (concat bs) l.
  Proof.
    induction n as [|n IH]; intros [|t l] L; simpl in L; try lia; try (exists []; auto; fail).
    cbn [loopy_batches]. destruct (loopy_batch (t :: l) [] []) as [b o] eqn:Q. pose proof (loopy_batch_perm _ _ _ _ _ Q) as P.
    pose proof (loopy_batch_ne _ _ _ _ Q) as NE.
    destruct (IH o) as (bs & E & P2). { apply Permutation_length in P. rewrite app_length in P. simpl in P. destruct b; [congruence|]. simpl in P. lia. }
    rewrite E. cbn [rbind]. exists (b :: bs). split; auto. simpl. rewrite P2. auto.
  Qed.
  Lemma loopy_order_ok pool l : exists bs, loopy_order pool l = Ok bs /\ Permutation (concat bs) l.
  Proof.
    unfold loopy_order. destruct (1 <? pool). apply loopy_batches_ok; auto. exists [l]. split; auto. simpl. rewrite app_nil_r. auto.
  Qed.

  (** {1 All the clusters} *)
  Section All.
    Variable k : kind.

    (** what holds of a cluster after its propagation *)
    Record cdone (s : gst) (S : list nat) (tree : bool) : Prop := {
      cd_has : forall a b, In a S -> adj a b = true -> has s a b;
      cd_all : allm s S;
      cd_tree : tree = true -> exists rank, ranked adj rank S /\ (floored H s0 k -> fixp k sz adj psi (mval s) u S);
      cd_shape : tree = true <-> ~ exists c, cycle (eact s0) c /\ incl c S
    }.

    Lemma cdone_ext s s' S tree : (forall a b, In a S -> act s' b a = act s b a) -> mgrow s s' -> cdone s S tree -> cdone s' S tree.
    Proof.
      intros E G [D1 D2 D3 D4]. constructor; auto.
      - intros a b Ia A. apply (has_ext s s'); auto.
      - eapply allm_grow; eauto.
      - intros T. destruct (D3 T) as (rank & R & F). exists rank. split; auto. intros FL a b Ia Ib A.
        destruct (F FL a b Ia Ib A) as (c & Pc & V). exists c. split; auto. intros j Lj. rewrite (mval_ext s s') by auto. rewrite V by auto.
        f_equal. apply bigL_ext. intros i _. do 2 f_equal. apply prodL_ext. intros z Iz. apply filter_In in Iz as [Iz _].
        unfold nb in Iz. apply filter_In in Iz as [Iz _]. rewrite (mval_ext s s'); auto.
    Qed.

    Lemma cluster_ok e pool i s S : env_ok e -> st s -> nth_error nds i = Some S -> (forall a b, In a S -> ~ has s a b) ->
      exists tree s' cl, (do (_, s) <- prepare H e i s ;;
          do (cl, s) <- lift (get_cl s i) s ;;
          do (tree, s) <- message_passing H e pool k i s ;;
          if (tree : bool) then Ret (true, true, length (cl_nodes cl)) s
          else do (done, s) <- loopy_propagate H e pool k i s ;; Ret (false, done, length (cl_nodes cl)) s) = Ret (tree, cl, length S) s' /\
        st s' /\ cdone s' S tree /\ mgrow s s' /\ (forall a b, ~ In a S -> act s' b a = act s b a) /\
        g_pool s' = g_pool s /\ g_last s' = g_last s /\ g_iters s' = g_iters s.
    Proof.
      intros E St Hi NH. destruct (prepare_ok e i s S E St Hi) as (s1 & E1 & S1 & A1 & G1 & M1 & P1 & P2 & P3 & (cl & ts & Hn & En & Et)).
      destruct (nds_facts S (nth_error_In _ _ Hi)) as (SN & NE & SH & SC).
      rewrite E1. cbn [obind].
      assert (Eg : get_cl s1 i = Ok cl) by (unfold get_cl, vget; rewrite Hn; auto).
      rewrite Eg. cbn [lift obind].
      assert (TO : topo_ok s0 S ts). { apply (topo_s0 s1); auto. rewrite <- En. apply (cs_topo _ (st_clus s1 S1)); auto. eapply nth_error_In; eauto. }
      unfold message_passing. rewrite Eg. cbn [lift obind]. rewrite Et.
      assert (MI : mpi ts k s1 s1 [] ts).
      { constructor; auto.
        - apply mframe_refl.
        - intros t It Hh. destruct (edge_snd S ts TO SC t It) as (Ia & _ & _). apply (NH (t_snd t) (t_rcv t) Ia).
          apply (has_ext s s1); auto.
        - intros t [].
        - intros d1 t d2 Q. destruct d1; discriminate. }
      destruct (mp_loop_ok S ts TO SC k e pool s1 E M1 (length ts) s1 [] ts (le_n _) MI) as (b & s2 & d2 & l2 & E2 & M2 & B1 & B2).
      rewrite E2. cbn [obind]. pose proof (mi_fr _ _ _ _ _ _ M2) as (F1 & F2 & F3 & F4).
      assert (G12 : mgrow s1 s2) by (apply mgrow_eq; apply M2).
      assert (OUT2 : forall a b, ~ In a S -> act s2 b a = act s b a).
      { intros a b' Na. rewrite (mi_out _ _ _ _ _ _ M2). apply A1. rewrite (edge_In S ts TO). tauto. }
      destruct b.
      - exists true, s2, true. rewrite En. rewrite (B1 eq_refl) in M2. split; auto. splits; auto; try congruence.
        + apply M2.
        + constructor.
          * intros a b' Ia A. eapply mp_has; eauto.
          * eapply allm_grow; eauto.
          * intros _. exists (mrank d2). split. eapply mp_ranked; eauto. intros FL. eapply mp_fixp; eauto.
          * split; auto. intros _ (c & Cc & I). eapply mp_acyclic; eauto.
        + eapply mgrow_trans; eauto.
      - destruct (B2 eq_refl) as [NE2 ST2]. unfold loopy_propagate.
        assert (Eg2 : get_cl s2 i = Ok cl) by (unfold get_cl, vget; rewrite F1, Hn; auto). rewrite Eg2. cbn [lift obind].
        destruct (set_ones_ok S SH SC e cl s2 E (mi_st _ _ _ _ _ _ M2) En) as (s3 & E3 & L3). rewrite E3. cbn [obind]. rewrite Et.
        destruct (loopy_order_ok pool ts) as (bs & Eo & Po). rewrite Eo. cbn [lift obind].
        destruct (loopy_iter_ok S ts TO SC k e pool s2 bs E) with (n := g_iters s3) (s := s3) as (done & s4 & E4 & L4); auto.
        { eapply allm_grow; eauto. }
        { intros b Ib t It. eapply Permutation_in; [exact Po|]. apply in_concat. eauto. }
        rewrite E4. cbn [obind]. rewrite En. exists false, s4, done. split; auto. destruct L4 as [L41 (L42 & L43 & L44 & L45) L46 L47 L48].
        splits; auto; try congruence.
        + constructor; auto.
          * eapply allm_grow; [apply mgrow_eq; apply L46|]. eapply allm_grow; eauto.
          * discriminate.
          * split. discriminate. intros NC. exfalso. apply NC. eapply mp_stuck; eauto.
        + eapply mgrow_trans; [exact G1|]. eapply mgrow_trans; [exact G12|]. apply mgrow_eq; auto.
        + intros a b Na. rewrite L48 by auto. auto.
    Qed.

    Lemma prop_loop_ok e pool : env_ok e -> forall is, NoDup is -> (forall i, In i is -> i < length nds) -> forall r s, st s ->
      (forall i S a b, In i is -> nth_error nds i = Some S -> In a S -> ~ has s a b) ->
      exists r' s' fl, prop_loop H e pool k is r s = Ret r' s' /\ st s' /\ pr_kind r' = pr_kind r /\ pr_structs r' = pr_structs r ++ fl /\
        Forall2 (fun i f => forall S, nth_error nds i = Some S -> cdone s' S (fst f) /\ snd f = length S) is fl /\
        mgrow s s' /\ (forall a b, (forall i S, In i is -> nth_error nds i = Some S -> ~ In a S) -> act s' b a = act s b a) /\
        g_pool s' = g_pool s /\ g_last s' = g_last s /\ g_iters s' = g_iters s.
    Proof.
      intros E. induction is as [|i is IH]; intros ND Lt r s St NH.
      - exists r, s, []. cbn [prop_loop]. rewrite app_nil_r. splits; auto. apply mgrow_refl.
      - inversion ND as [|? ? Ni ND']; subst. destruct (nth_error nds i) as [S|] eqn:Hi.
        2:{ apply nth_error_None in Hi. specialize (Lt i (or_introl eq_refl)). lia. }
        destruct (cluster_ok e pool i s S E St Hi) as (tree & s1 & done & E1 & S1 & D1 & G1 & O1 & P1 & P2 & P3).
        { intros a b Ia. eapply NH; simpl; eauto. }
        assert (REST : forall r1, exists r' s' fl, prop_loop H e pool k is r1 s1 = Ret r' s' /\ st s' /\ pr_kind r' = pr_kind r1 /\ pr_structs r' = pr_structs r1 ++ fl /\
          Forall2 (fun i f => forall S, nth_error nds i = Some S -> cdone s' S (fst f) /\ snd f = length S) is fl /\
          mgrow s1 s' /\ (forall a b, (forall i S, In i is -> nth_error nds i = Some S -> ~ In a S) -> act s' b a = act s1 b a) /\
          g_pool s' = g_pool s1 /\ g_last s' = g_last s1 /\ g_iters s' = g_iters s1).
        { intros r1. apply IH; auto. { intros; apply Lt; simpl; auto. }
          intros j Sj a b Ij Hj Ia Hh. apply (NH j Sj a b); simpl; auto. apply (has_ext s s1); auto. apply O1.
          intros Ia'. apply Ni. rewrite (nds_disjoint i j S Sj a); auto. }
        cbn [prop_loop].
        destruct (prepare H e i s) as [[] s2|s2| | |]; cbn [obind] in *; try discriminate.
        destruct (lift (get_cl s2 i) s2) as [cl s3|s3| | |]; cbn [obind] in *; try discriminate.
        destruct (message_passing H e pool k i s3) as [tr s4|s4| | |]; cbn [obind] in *; try discriminate.
        assert (FIN : forall r1 f, snd f = length S -> fst f = tree -> pr_kind r1 = pr_kind r -> pr_structs r1 = pr_structs r ++ [f] ->
          exists r' s' fl, prop_loop H e pool k is r1 s1 = Ret r' s' /\ st s' /\ pr_kind r' = pr_kind r /\ pr_structs r' = pr_structs r ++ fl /\
          Forall2 (fun i f => forall S, nth_error nds i = Some S -> cdone s' S (fst f) /\ snd f = length S) (i :: is) fl /\
          mgrow s s' /\ (forall a b, (forall j S, In j (i :: is) -> nth_error nds j = Some S -> ~ In a S) -> act s' b a = act s b a) /\
          g_pool s' = g_pool s /\ g_last s' = g_last s /\ g_iters s' = g_iters s).
        { intros r1 f Ef1 Ef2 Ek Es. destruct (REST r1) as (r' & s' & fl & Ep & S' & K' & T' & F' & G' & O' & Q1 & Q2 & Q3).
          exists r', s', (f :: fl). splits; auto; try congruence.
          - rewrite T', Es, <- app_assoc. auto.
          - constructor; auto. intros S2 H2. assert (S2 = S) by congruence. subst S2. split; auto. rewrite Ef2.
            apply (cdone_ext s1); auto. intros a b Ia. apply O'. intros j Sj Ij Hj Ia'. apply Ni. rewrite (nds_disjoint i j S Sj a); auto.
          - eapply mgrow_trans; eauto.
          - intros a b Na. rewrite O'. apply O1. apply (Na i S); simpl; auto. intros j Sj Ij. apply Na; simpl; auto. }
        destruct tr.
        + injection E1 as <- <- El <-. rewrite El. apply (FIN _ (true, length S)); auto.
        + destruct (loopy_propagate H e pool k i s4) as [dn s5|s5| | |]; cbn [obind] in *; try discriminate.
          injection E1 as <- <- El <-. rewrite El. apply (FIN _ (false, length S)); auto.
    Qed.
  End All.

  (** the state after a propagation *)
  Record pdone (k : kind) (s : gst) (r : presult) : Prop := {
    pd_st : st s;
    pd_kind : pr_kind r = k;
    pd_done : Forall2 (fun S f => cdone k s S (fst f) /\ snd f = length S) nds (pr_structs r)
  }.

  Lemma Forall2_seq_nth {A B} (P : A -> B -> Prop) (l : list A) : forall (b : nat) (fl : list B) pre, length pre = b ->
    Forall2 (fun i f => forall x, nth_error (pre ++ l) i = Some x -> P x f) (seq b (length l)) fl -> Forall2 P l fl.
  Proof.
    induction l as [|a l IH]; intros b fl pre Lp F; simpl in F; inversion F as [|? f ? fl' F1 F2]; subst; constructor.
    - apply F1. rewrite nth_error_app2, Nat.sub_diag by lia. auto.
    - apply (IH (S (length pre)) fl' (pre ++ [a])). rewrite app_length; simpl; lia. rewrite <- app_assoc. auto.
  Qed.

  Lemma propagate_ok e k s pool : env_ok e -> keeps H s0 s -> would_need s k = true -> g_pool s = Some pool ->
    exists r s', propagate H e k s = Ret tt s' /\ g_last s' = Some r /\ pdone k s' r /\ g_pool s' = Some pool /\ g_iters s' = g_iters s.
  Proof.
    intros E St W P. unfold propagate. rewrite W, P. simpl negb. cbv iota.
    destruct (reset_messages_ok e s E St) as (s1 & E1 & S1 & (F1 & F2 & F3 & F4) & G1 & NH). rewrite E1. cbn [obind].
    assert (Ln : length (g_cl s1) = length nds). { rewrite <- (st_nds s1 S1), map_length. auto. }
    destruct (prop_loop_ok k e pool E (seq 0 (length (g_cl s1)))) with (r := mkPR k true []) (s := s1)
      as (r' & s' & fl & E2 & S2 & K2 & T2 & D2 & G2 & _ & P1 & P2 & P3); auto.
    { apply seq_NoDup. } { intros i I. apply in_seq in I. lia. }
    rewrite E2. cbn [obind]. exists r', (set_last s' (Some r')). splits; auto.
    - simpl in T2. constructor; auto.
      { destruct S2 as [K MG]. split. eapply keeps_trans; [exact K|]. apply keeps_last. intros a b c m v. apply MG. }
      rewrite T2. rewrite Ln in D2.
      apply (Forall2_seq_nth _ nds 0 fl []); auto. eapply Forall2_imp; [|exact D2].
      intros i f HP S HS. destruct (HP S HS) as [[D3 D4 D5 D6] Q]. split; auto. constructor; auto.
    - simpl. congruence.
    - simpl. congruence.
  Qed.
End Run.
