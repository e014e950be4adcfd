(** The messages of the propagation: potentials seen by the propagation, one
    message, and invariant of the messages *)
From Coq Require Import String List Arith Bool Lia Permutation Relations.
From Verif Require Import Res Num Categoric Func FuncProofs GroupProofs FactorProofs FactorApi Special SpecialProofs
  Graph GraphLemmas Clusters Belief GraphInv EvidInv BeliefInv BigOp Tree.
Import ListNotations.
Open Scope nat_scope.

Section Pot.
  Context {N : num} (OK : num_ok N).
  Variable H : nat -> func N.
  Hypothesis HG : goods H.
  Notation gst := (gst (N:=N)).
  Notation conn := (conn (N:=N)).
  Implicit Types s : gst.
  Notation core := (core H).
  Add Field NFieldStep : (ok_field N OK).

  (** {1 Potentials} *)
  Definition szn s a : nat := match nth_error (g_vars s) a with Some v => vsize v | None => 0 end.
  Definition adjb s a b : bool := is_some (act s a b).
  (** the factor between [a] and [b] when [a] is [i] and [b] is [j], as the
      messages read it: the two values are exchanged *)
  Definition psi s a b i j : N :=
    match act s a b, nth_error (g_vars s) a with
    | Some c, Some va => bval (H (c_fac c)) va j i
    | _, _ => n1
    end.
  (** the factor between [a] and the observed node [b] when [a] is [i] *)
  Definition evval s a i b : N :=
    match dis s a b, g_ev s b, nth_error (g_vars s) b with
    | Some c, Some k, Some vb => bval (H (c_fac c)) vb k i
    | _, _, _ => n1
    end.
  Definition uw s a i : N :=
    (prodL (fun f => uval (H f) i) (nd_un (g_node s a)) * prodL (evval s a i) (keys (gsize s) (nd_dis (g_node s a))))%num.

  Lemma szn_at s a v : var_at s a v -> szn s a = vsize v.
  Proof. unfold var_at, szn. intros ->. auto. Qed.

  Lemma adjb_eact s a b : adjb s a b = true <-> eact s a b.
  Proof. unfold adjb, eact. apply is_some_true. Qed.
  Lemma adjb_sym s fs a b : core s fs -> adjb s a b = adjb s b a.
  Proof.
    intros C. apply eq_true_iff_eq. rewrite !adjb_eact. split; intros [c E]; apply (co_act_sym _ _ _ C) in E as (d & E & _); exists d; auto.
  Qed.
  Lemma adjb_irr s fs a : core s fs -> adjb s a a = false.
  Proof.
    intros C. destruct (adjb s a a) eqn:E; auto. apply adjb_eact in E as [c E]. apply (co_act _ _ _ C) in E. destruct E as [E _]. congruence.
  Qed.
  Lemma factor_unary f v : fvars H f = [v] -> unary v (H f).
  Proof. intros E. split; auto. destruct (HG f) as ((W & _) & _). auto. Qed.
  Lemma bval_swap f x y i j : fvars H f = [x; y] -> bval (H f) x i j = bval (H f) y j i.
  Proof.
    intros E. pose proof (factor_binary H HG f x y E) as (_ & E2 & NE). unfold bval. rewrite E2. rewrite var_peqb_refl, var_peqb_ne; auto.
  Qed.
  Lemma psi_sym s fs a b i j : core s fs -> psi s a b i j = psi s b a j i.
  Proof.
    intros C. unfold psi. destruct (act s a b) as [c|] eqn:E.
    - destruct (co_act_sym _ _ _ C _ _ _ E) as (d & Ed & Ef). rewrite Ed, Ef.
      destruct (co_act _ _ _ C _ _ _ E) as (NE & _ & va & vb & Ha & Hb & Q). unfold var_at in Ha, Hb. rewrite Ha, Hb.
      destruct Q as [Q|Q]. apply bval_swap; auto. symmetry. apply bval_swap; auto.
    - destruct (act s b a) as [d|] eqn:Ed; auto. apply (co_act_sym _ _ _ C) in Ed as (c & E' & _). congruence.
  Qed.

  Lemma uval_nonneg f v k : fvars H f = [v] -> k < vsize v -> (n0 <= uval (H f) k)%num.
  Proof.
    intros E L. apply (fval_nonneg OK); auto. rewrite (unary_fsizes v). apply valid_1; auto. apply factor_unary; auto.
  Qed.
  Lemma bval_nonneg f x y i j : fvars H f = [x; y] -> i < vsize x -> j < vsize y -> (n0 <= bval (H f) x i j)%num.
  Proof.
    intros E Li Lj. pose proof (factor_binary H HG f x y E) as B. pose proof B as (_ & E2 & NE). unfold bval. rewrite E2, var_peqb_refl.
    apply (fval_nonneg OK); auto. rewrite (binary_fsizes _ _ _ B). apply valid_2; auto.
  Qed.
  Lemma bval_nonneg' f x y i j : fvars H f = [x; y] -> i < vsize x -> j < vsize y -> (n0 <= bval (H f) y j i)%num.
  Proof. intros E Li Lj. rewrite <- (bval_swap f x y i j) by auto. eapply bval_nonneg; eauto. Qed.

  (** the two variables of an active connection have the same number of values *)
  Definition evened s : Prop := forall a b c va vb, act s a b = Some c -> var_at s a va -> var_at s b vb -> vsize va = vsize vb.

  Lemma psi_nonneg s fs a b i j : core s fs -> evened s -> adjb s a b = true -> i < szn s a -> j < szn s b -> (n0 <= psi s a b i j)%num.
  Proof.
    intros C EV A Li Lj. apply adjb_eact in A as [c E]. unfold psi. rewrite E.
    destruct (co_act _ _ _ C _ _ _ E) as (NE & _ & va & vb & Ha & Hb & Q). rewrite (szn_at _ _ _ Ha) in Li. rewrite (szn_at _ _ _ Hb) in Lj.
    pose proof (EV a b c va vb E Ha Hb) as SZ. unfold var_at in Ha. rewrite Ha.
    destruct Q as [Q|Q]. eapply bval_nonneg; eauto; lia. eapply bval_nonneg'; eauto; lia.
  Qed.

  (** {1 The merged unaries of a node} *)
  Lemma evval_ok s fs a va b c : core s fs -> g_ev s a = None -> var_at s a va -> dis s a b = Some c ->
    exists m, c_msg c = Some m /\ unary va m /\ (forall i, i < vsize va -> uval m i = evval s a i b) /\ unary_nonneg va m.
  Proof.
    intros C E Ha D. destruct (g_ev s b) as [k|] eqn:Eb.
    2:{ rewrite (co_hh _ _ _ C a b E Eb) in D. discriminate. }
    destruct (co_ev _ _ _ C _ _ Eb) as (vb & Hb & Lk).
    destruct (co_msg _ _ _ C a b c k vb E Eb D Hb) as (m & Em & Ee). exists m. split; auto.
    destruct (co_dis _ _ _ C _ _ _ D) as (NE & _ & va' & vb' & Ha' & Hb' & Q).
    assert (va' = va) by (eapply var_at_fun; eauto). assert (vb' = vb) by (eapply var_at_fun; eauto). subst.
    assert (X : exists x y, fvars H (c_fac c) = [x; y] /\ (vb = x /\ va = y \/ vb = y /\ va = x)).
    { destruct Q as [Q|Q]; eexists _, _; split; eauto. }
    destruct X as (x & y & Ef & Ho).
    destruct (evidence_factor_ok _ x y vb va k (factor_binary H HG _ _ _ Ef) Ho Lk) as (m' & Em' & U & _ & _ & Iv).
    assert (m' = m) by congruence. subst m'. split; auto.
    assert (EV : forall i, i < vsize va -> uval m i = evval s a i b).
    { intros i Li. rewrite Iv by auto. unfold evval. unfold var_at in Hb. rewrite D, Eb, Hb. auto. }
    split; auto. intros i Li. rewrite Iv by auto. destruct Ho as [[-> ->]|[-> ->]].
    - eapply bval_nonneg; eauto.
    - eapply bval_nonneg'; eauto.
  Qed.

  Lemma gather_ok s fs e a va : core s fs -> env_ok e -> g_ev s a = None -> var_at s a va ->
    exists l, gather_unaries H e s a = map Some l /\ Forall (unary va) l /\ (forall f, In f l -> unary_nonneg va f) /\
      forall i, i < vsize va -> prodL (fun f => uval f i) l = uw s a i.
  Proof.
    intros C E Ev Ha.
    assert (G : forall ks, (forall b, In b ks -> exists c, dis s a b = Some c) -> exists l,
      map (fun b => match dis s a b with Some c => c_msg c | None => None end) ks = map Some l /\ Forall (unary va) l /\
      (forall f, In f l -> unary_nonneg va f) /\ forall i, i < vsize va -> prodL (fun f => uval f i) l = prodL (evval s a i) ks).
    { induction ks as [|b ks IH]; intros F.
      - exists []. splits; auto. intros f [].
      - destruct IH as (l & E1 & E2 & E3 & E4); [intros; apply F; simpl; auto|].
        destruct (F b (or_introl eq_refl)) as [c D]. destruct (evval_ok s fs a va b c C Ev Ha D) as (m & Em & U & V & NN).
        exists (m :: l). simpl. rewrite D, Em, E1. splits; auto.
        + intros f [<-|I]; auto.
        + intros i Li. rewrite V, E4; auto. }
    destruct (G (e_ord e a (keys (gsize s) (nd_dis (g_node s a))))) as (l & E1 & E2 & E3 & E4).
    { intros b I. apply ord_In in I; auto. apply keys_In in I. apply I. }
    exists (map H (nd_un (g_node s a)) ++ l). unfold gather_unaries. rewrite E1, map_app, map_map. split; auto.
    assert (UN : forall f, In f (nd_un (g_node s a)) -> fvars H f = [va]).
    { intros f I. destruct (co_un _ _ _ C a f I) as (_ & v & Hv & Ef). rewrite (var_at_fun _ _ _ _ Hv Ha) in Ef. auto. }
    split; [|split].
    - apply Forall_app. split; auto. apply Forall_forall. intros f I. apply in_map_iff in I as (g & <- & I). apply factor_unary; auto.
    - intros f I. apply in_app_iff in I as [I|I]; auto. apply in_map_iff in I as (g & <- & I). intros k Lk. eapply uval_nonneg; eauto.
    - intros i Li. rewrite (prodL_app OK), prodL_map, E4 by auto. unfold uw. f_equal. apply (prodL_perm OK). apply E.
  Qed.

  Lemma uw_nonneg s fs a i : core s fs -> g_ev s a = None -> i < szn s a -> (n0 <= uw s a i)%num.
  Proof.
    intros C E L. destruct (Nat.lt_ge_cases a (gsize s)) as [La|La].
    - destruct (var_at_ex _ _ La) as (va & Ha). rewrite (szn_at _ _ _ Ha) in L.
      destruct (gather_ok s fs env_id a va C env_id_ok E Ha) as (l & _ & _ & NN & P). rewrite <- P by auto.
      apply (prodL_nonneg OK). intros f I. apply NN; auto.
    - exfalso. unfold szn in L. unfold gsize in La. apply nth_error_None in La. rewrite La in L. lia.
  Qed.

  (** a normalized multiple of a function of the values of a variable *)
  Definition scaled (v : var) (m : func N) (h : nat -> N) : Prop :=
    unary v m /\ unary_nonneg v m /\ (exists c, (n0 < c)%num /\ forall i, i < vsize v -> uval m i = (c * h i)%num) /\
    exists i, i < vsize v /\ uval m i = n1.

  Lemma merge_scaled s fs e a va : core s fs -> env_ok e -> g_ev s a = None -> var_at s a va ->
    (exists i, i < vsize va /\ uw s a i <> n0) -> exists m, merge_of H e s a = Ok m /\ scaled va m (uw s a).
  Proof.
    intros C E Ev Ha (i0 & L0 & P0). destruct (gather_ok s fs e a va C E Ev Ha) as (l & E1 & E2 & E3 & E4).
    unfold merge_of. rewrite E1. destruct l as [|f0 l].
    - simpl. unfold node_var, vget. unfold var_at in Ha. rewrite Ha. cbn [rbind]. eexists. split; [reflexivity|].
      unfold merged_var. rewrite mergable_dense. assert (P : 0 < vsize va) by lia. split; [|split; [|split]].
      + apply dense_fun_unary; auto.
      + intros k Lk. rewrite dense_fun_val by auto. apply (nlt_le OK), (nlt_0_1 OK).
      + exists n1. split. apply (nlt_0_1 OK). intros i Li. rewrite dense_fun_val by auto. rewrite <- E4 by auto. simpl. ring.
      + exists 0. split; auto. rewrite dense_fun_val; auto.
    - set (ll := f0 :: l) in *. assert (NE : ll <> []) by discriminate.
      destruct (merged_unaries_ok OK va ll E2 NE E3) as (c & m & Pc & Em & U & _ & _ & V & I1).
      { exists i0. split; auto. rewrite E4; auto. }
      exists m. split. { rewrite <- Em. unfold ll. simpl. auto. }
      split; auto. split. { intros k Lk. apply V; auto. } split; auto.
      exists c. split; auto. intros i Li. rewrite <- E4 by auto. apply V; auto.
  Qed.

  Lemma merged_for_scaled s fs a va m : core s fs -> g_ev s a = None -> var_at s a va ->
    (exists i, i < vsize va /\ uw s a i <> n0) -> merged_for H s a m -> scaled va m (uw s a).
  Proof.
    intros C Ev Ha P (e & He & Em). destruct (merge_scaled s fs e a va C He Ev Ha P) as (m' & Em' & S). congruence.
  Qed.

  (** {1 The reduction of a message} *)
  Lemma bigL_ge k {A} (f : A -> N) l a : (forall b, In b l -> (n0 <= f b)%num) -> In a l -> (f a <= bigL k f l)%num.
  Proof.
    assert (LE : forall x y : N, (n0 <= x)%num -> (n0 <= y)%num -> (x <= red_update k x y)%num).
    { intros x y Lx Ly. destruct k; simpl.
      - pose proof (nle_add OK x x n0 y (nle_refl OK x) Ly) as Q. replace (x + n0)%num with x in Q by ring. auto.
      - apply (nmax_le_l OK). }
    induction l as [|b l IH]; simpl; intros F I. contradiction.
    destruct I as [->|I]. apply LE; auto. apply (bigL_nonneg OK); auto.
    rewrite (op_comm OK). apply (nle_trans OK _ (bigL k f l)); auto. apply LE; auto. apply (bigL_nonneg OK); auto.
  Qed.

  Lemma reduce_big k (f : nat -> N) l : (forall a, In a l -> (n0 <= f a)%num) ->
    reduce k (map f l) = red_update k (red_init k) (bigL k f l).
  Proof.
    intros F. unfold reduce. assert (P : (n0 <= red_init (N:=N) k)%num).
    { destruct k; simpl. apply (nle_refl OK). apply (nlt_le OK). apply (ok_fltmin _ OK). }
    revert P. generalize (red_init (N:=N) k). induction l as [|a l IH]; simpl; intros x P.
    - rewrite (op_comm OK), (op_0_l OK); auto.
    - rewrite IH; [symmetry; apply (op_assoc OK)|intros; apply F; simpl; auto|apply (op_nonneg OK); auto; apply F; simpl; auto].
  Qed.

  (** no factor between unobserved variables takes values below the floor of
      the messages of the maximum *)
  Definition floored s k : Prop := k = SUM \/
    forall a b i j, adjb s a b = true -> i < szn s a -> j < szn s b -> (nfltmin <= psi s a b i j)%num.

  Lemma psi_val s a b c va i j : act s a b = Some c -> var_at s a va -> psi s a b i j = bval (H (c_fac c)) va j i.
  Proof. unfold psi, var_at. intros -> ->. auto. Qed.

  (** {1 Same potentials} *)
  Lemma keeps_szn s s' a : keeps H s s' -> szn s' a = szn s a.
  Proof. intros K. unfold szn. rewrite (kp_vars _ _ _ K). auto. Qed.
  Lemma keeps_adj s s' a b : keeps H s s' -> adjb s' a b = adjb s a b.
  Proof. intros K. apply eq_true_iff_eq. rewrite !adjb_eact. apply (keeps_eact H); auto. Qed.
  Lemma keeps_psi s s' a b i j : keeps H s s' -> psi s' a b i j = psi s a b i j.
  Proof.
    intros K. unfold psi. rewrite (kp_vars _ _ _ K). pose proof (kp_act _ _ _ K a b) as Q.
    destruct (act s' a b) as [c|], (act s a b) as [d|]; simpl in Q; try discriminate; auto. injection Q as Q _. rewrite Q. auto.
  Qed.
  Lemma keeps_uw s s' a i : keeps H s s' -> uw s' a i = uw s a i.
  Proof.
    intros K. unfold uw. rewrite (kp_un _ _ _ K), (keeps_size H _ _ K).
    rewrite (keys_ext (gsize s) (nd_dis (g_node s' a)) (nd_dis (g_node s a))).
    2:{ intros b _. pose proof (kp_dis _ _ _ K a b) as Q. unfold dis in Q. rewrite Q. auto. }
    f_equal. apply prodL_ext. intros b _. unfold evval. rewrite (kp_dis _ _ _ K), (kp_ev _ _ _ K), (kp_vars _ _ _ K). auto.
  Qed.
  Lemma keeps_evened s s' : keeps H s s' -> evened s -> evened s'.
  Proof.
    intros K E a b c va vb A. unfold var_at. rewrite (kp_vars _ _ _ K). apply (keeps_act H _ _ _ _ _ K) in A as (d & A & _).
    eapply E; eauto.
  Qed.
  Lemma keeps_floored s s' k : keeps H s s' -> floored s k -> floored s' k.
  Proof.
    intros K [F|F]; [left; auto|right]. intros a b i j. rewrite (keeps_adj s s'), !(keeps_szn s s'), (keeps_psi s s') by auto. apply F.
  Qed.
End Pot.
