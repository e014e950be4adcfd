(** Elimination of the leaves of a tree: the products of messages that satisfy
    the equations of the belief propagation are the sums (maxima) over the
    eliminated nodes *)
From Coq Require Import List Arith Bool Lia Permutation Relations Field Ring.
From Verif Require Import Res Num Categoric Func Special Graph GraphLemmas Clusters BigOp.
Import ListNotations.
Open Scope nat_scope.

Lemma NoDup_app_left {A} (l1 l2 : list A) : NoDup (l1 ++ l2) -> NoDup l1.
Proof.
  induction l1 as [|x l1 IH]; simpl; intros H; constructor; inversion H; subst; auto. intros I. apply H2. apply in_or_app; auto.
Qed.

Lemma filter_perm {A} (p : A -> bool) l l' : Permutation l l' -> Permutation (filter p l) (filter p l').
Proof.
  induction 1; simpl; auto.
  - destruct (p x); auto.
  - destruct (p x), (p y); auto. constructor.
  - etransitivity; eauto.
Qed.
Lemma filter_none {A} (p : A -> bool) l : (forall x, In x l -> p x = false) -> filter p l = [].
Proof. induction l as [|x l IH]; simpl; intros E; auto. rewrite E, IH; auto. Qed.

Section Shape.
  Variable adj : nat -> nat -> bool.
  Hypothesis adj_sym : forall a b, adj a b = adj b a.
  Hypothesis adj_irr : forall a, adj a a = false.
  Variable rank : nat -> nat -> nat.

  Definition nb (S : list nat) (a : nat) : list nat := filter (adj a) S.
  Lemma nb_In S a b : In b (nb S a) <-> In b S /\ adj a b = true.
  Proof. apply filter_In. Qed.

  Definition adjP a b : Prop := adj a b = true.
  Definition conn_in (S : list nat) : Prop := forall a b, In a S -> In b S -> linked adjP (fun z => In z S) a b.
  (** the messages that the message from [a] to [b] needs have a lower rank *)
  Definition ranked (S : list nat) : Prop := forall a b k, In a S -> In b S -> In k S ->
    adj a b = true -> adj k a = true -> k <> b -> rank k a < rank a b.
  Definition leaf (S : list nat) (l p : nat) : Prop := In l S /\ In p S /\ forall z, In z S -> (adj l z = true <-> z = p).

  Lemma ranked_incl S S' : incl S' S -> ranked S -> ranked S'.
  Proof. intros I R a b c A B C. apply R; auto. Qed.
  Lemma conn_perm S S' : Permutation S S' -> conn_in S -> conn_in S'.
  Proof.
    intros P C a b A B. eapply linked_mono; [| |apply C]; eauto.
    - intros z I. apply (Permutation_in _ P I).
    - apply (Permutation_in _ (Permutation_sym P) A).
    - apply (Permutation_in _ (Permutation_sym P) B).
  Qed.

  (** a leaf can be removed *)
  Lemma conn_leaf S S' l p : Permutation S (l :: S') -> NoDup S -> conn_in S -> leaf S l p -> conn_in S'.
  Proof.
    intros P ND C (Il & Ip & Hl).
    assert (NDl : NoDup (l :: S')) by (eapply Permutation_NoDup; eauto). inversion NDl as [|? ? NI ND']; subst.
    assert (Npl : p <> l). { intros ->. assert (Q : adj l l = true) by (apply Hl; auto). rewrite adj_irr in Q. discriminate. }
    assert (IS : forall z, In z S <-> z = l \/ In z S').
    { intros z. split; intros I. apply (Permutation_in _ P) in I as [-> |I]; auto.
      apply (Permutation_in _ (Permutation_sym P)). destruct I as [-> |I]; simpl; auto. }
    assert (Ip' : In p S') by (apply IS in Ip as [|]; auto; contradiction).
    set (pi := fun z => if z =? l then p else z).
    assert (PI : forall z, In z S -> In (pi z) S').
    { intros z I. unfold pi. destruct (Nat.eqb_spec z l); auto. apply IS in I as [|]; auto. contradiction. }
    assert (G : forall a b, linked adjP (fun z => In z S) a b -> linked adjP (fun z => In z S') (pi a) (pi b)).
    { intros a b L. induction L as [a b (A & Ia & Ib)| |a b c L1 IH1 L2 IH2].
      - unfold pi. destruct (Nat.eqb_spec a l) as [-> |Na], (Nat.eqb_spec b l) as [-> |Nb].
        + apply rt_refl.
        + apply Hl in A; auto. subst. apply rt_refl.
        + unfold adjP in A. rewrite adj_sym in A. apply Hl in A; auto. subst. apply rt_refl.
        + apply rt_step. split; auto. apply IS in Ia as [|], Ib as [|]; try contradiction; auto.
      - apply rt_refl.
      - eapply rt_trans; eauto. }
    intros a b A B. assert (E : forall z, In z S' -> pi z = z).
    { intros z I. unfold pi. destruct (Nat.eqb_spec z l); auto. subst. contradiction. }
    rewrite <- (E a), <- (E b); auto. apply G. apply C; apply IS; auto.
  Qed.

  Lemma conn_neighbour S a b : conn_in S -> In a S -> In b S -> a <> b -> exists c, In c S /\ adj a c = true.
  Proof.
    intros C A B NE. specialize (C a b A B). apply clos_rt_rt1n in C. destruct C as [|c b (Q & _ & I) _]. contradiction.
    exists c. auto.
  Qed.

  (** the edge with the lowest rank starts from a leaf *)
  Lemma min_edge S : (exists a b, In a S /\ In b S /\ adj a b = true) ->
    exists a b, In a S /\ In b S /\ adj a b = true /\ forall c d, In c S -> In d S -> adj c d = true -> rank a b <= rank c d.
  Proof.
    intros (a & b & A & B & Q).
    assert (G : forall n a b, rank a b <= n -> In a S -> In b S -> adj a b = true ->
      exists a b, In a S /\ In b S /\ adj a b = true /\ forall c d, In c S -> In d S -> adj c d = true -> rank a b <= rank c d).
    { clear. induction n as [|n IH]; intros a b L A B Q.
      - exists a, b. repeat split; auto. intros; lia.
      - destruct (existsb (fun c => existsb (fun d => adj c d && (rank c d <? rank a b)) S) S) eqn:E.
        + apply existsb_exists in E as (c & Ic & E). apply existsb_exists in E as (d & Id & E). apply andb_true_iff in E as [E1 E2].
          apply Nat.ltb_lt in E2. apply (IH c d); auto. lia.
        + exists a, b. repeat split; auto. intros c d Ic Id Qcd. destruct (Nat.le_gt_cases (rank a b) (rank c d)); auto. exfalso.
          assert (T : existsb (fun c => existsb (fun d => adj c d && (rank c d <? rank a b)) S) S = true).
          { apply existsb_exists. exists c. split; auto. apply existsb_exists. exists d. split; auto. rewrite Qcd. apply Nat.ltb_lt; auto. }
          congruence. }
    apply (G (rank a b) a b); auto.
  Qed.
  Lemma some_leaf S : ranked S -> (exists a b, In a S /\ In b S /\ adj a b = true) -> exists l p, leaf S l p.
  Proof.
    intros R E. destruct (min_edge S E) as (a & b & A & B & Q & M). exists a, b. split; auto. split; auto.
    intros z Iz. split; [|intros ->; auto]. intros Qz. destruct (Nat.eq_dec z b); auto. exfalso.
    rewrite adj_sym in Qz. pose proof (R a b z A B Iz Q Qz n) as L. pose proof (M z a Iz A Qz). lia.
  Qed.

  (** in a tree with a connected set [Q] of nodes, a leaf out of [Q] *)
  Lemma leaf_outside : forall n Q R, length (Q ++ R) <= n -> NoDup (Q ++ R) -> conn_in (Q ++ R) -> ranked (Q ++ R) ->
    conn_in Q -> Q <> [] -> R <> [] -> exists l p, In l R /\ leaf (Q ++ R) l p.
  Proof.
    induction n as [|n IH]; intros Q R L ND C RK CQ NQ NR.
    - destruct Q; simpl in L; [congruence|lia].
    - assert (EX : exists a b, In a (Q ++ R) /\ In b (Q ++ R) /\ adj a b = true).
      { destruct Q as [|q Q]; [congruence|]. destruct R as [|r R]; [congruence|].
        assert (Iq : In q ((q :: Q) ++ r :: R)) by (simpl; auto).
        assert (Ir : In r ((q :: Q) ++ r :: R)) by (apply in_or_app; simpl; auto).
        destruct (conn_neighbour _ q r C Iq Ir) as (c & Ic & Ec). intros ->. simpl in ND. inversion ND; subst. apply H1. apply in_or_app; simpl; auto.
        exists q, c. auto. }
      destruct (some_leaf _ RK EX) as (l & p & LF). pose proof LF as (Il & Ip & Hl).
      apply in_app_or in Il as [Il|Il]; [|exists l, p; auto].
      assert (Npl : p <> l). { intros ->. assert (F : adj l l = true) by (apply Hl; auto). rewrite adj_irr in F. discriminate. }
      apply in_split in Il as (Q1 & Q2 & ->).
      set (Q' := Q1 ++ Q2).
      assert (PQ : Permutation (Q1 ++ l :: Q2) (l :: Q')) by (symmetry; apply Permutation_middle).
      assert (PS : Permutation ((Q1 ++ l :: Q2) ++ R) (l :: Q' ++ R)).
      { rewrite (Permutation_app_tail R PQ). reflexivity. }
      assert (ND' : NoDup (l :: Q' ++ R)) by (eapply Permutation_NoDup; eauto). inversion ND' as [|? ? NI ND'']; subst.
      assert (C' : conn_in (Q' ++ R)) by (eapply conn_leaf; eauto).
      assert (RK' : ranked (Q' ++ R)). { eapply ranked_incl; [|exact RK]. intros z I. apply (Permutation_in _ (Permutation_sym PS)). simpl; auto. }
      assert (L' : length (Q' ++ R) <= n). { rewrite (Permutation_length PS) in L. simpl in L. lia. }
      assert (IS : forall z, In z ((Q1 ++ l :: Q2) ++ R) <-> z = l \/ In z (Q' ++ R)).
      { intros z. split; intros I. apply (Permutation_in _ PS) in I as [-> |I]; auto.
        apply (Permutation_in _ (Permutation_sym PS)). destruct I as [-> |I]; simpl; auto. }
      (* a leaf of the smaller tree that is not p is a leaf of the tree *)
      assert (UP : forall l' p', l' <> p -> leaf (Q' ++ R) l' p' -> leaf ((Q1 ++ l :: Q2) ++ R) l' p').
      { intros l' p' NE (I1 & I2 & Hl'). split; [apply IS; auto|]. split; [apply IS; auto|]. intros z Iz. apply IS in Iz as [-> |Iz]; [|apply Hl'; auto].
        split.
        - intros Q. exfalso. rewrite adj_sym in Q. apply Hl in Q; [contradiction|]. apply IS; auto.
        - intros ->. exfalso. apply NI. auto. }
      assert (DQ : Q' = [] \/ Q' <> []) by (destruct Q'; [left|right]; congruence).
      destruct DQ as [EQ|NQ'].
      + rewrite EQ in *. simpl in *. apply IS in Ip as [|Ip]; [contradiction|].
        apply in_split in Ip as (R1 & R2 & ->). assert (PR : Permutation (R1 ++ p :: R2) ([p] ++ (R1 ++ R2))) by (symmetry; apply (Permutation_middle R1 R2 p)).
        assert (DR : R1 ++ R2 = [] \/ R1 ++ R2 <> []) by (destruct (R1 ++ R2); [left|right]; congruence).
        destruct DR as [ER|NR'].
        * exists p, l. split. apply in_or_app; simpl; auto. split; [apply IS; right; apply in_or_app; simpl; auto|]. split; [apply IS; auto|].
          intros z Iz. apply IS in Iz as [-> |Iz].
          { split; auto. intros _. rewrite adj_sym. apply Hl; auto. apply IS. right. apply in_or_app; simpl; auto. }
          apply (Permutation_in _ PR) in Iz. rewrite ER in Iz. simpl in Iz. destruct Iz as [<- |[]]. rewrite adj_irr. split; congruence.
        * destruct (IH [p] (R1 ++ R2)) as (l' & p' & Il' & LF').
          { rewrite <- (Permutation_length PR). auto. } { eapply Permutation_NoDup; eauto. } { eapply conn_perm; eauto. }
          { eapply ranked_incl; [|exact RK']. intros z I. apply (Permutation_in _ (Permutation_sym PR)). auto. }
          { intros a b [<- |[]] [<- |[]]. apply rt_refl. } { discriminate. } { auto. }
          assert (Np : l' <> p).
          { intros ->. assert (NDp : NoDup ([p] ++ R1 ++ R2)) by (eapply Permutation_NoDup; eauto). inversion NDp; auto. }
          exists l', p'. split. apply in_or_app. apply in_app_or in Il' as [|]; simpl; auto.
          apply UP; auto. destruct LF' as (J1 & J2 & J3). split; [apply (Permutation_in _ (Permutation_sym PR)); auto|].
          split; [apply (Permutation_in _ (Permutation_sym PR)); auto|]. intros z Iz. apply J3. apply (Permutation_in _ PR); auto.
      + assert (CQ' : conn_in Q').
        { apply (conn_leaf (Q1 ++ l :: Q2) Q' l p); auto. eapply NoDup_app_left; eauto.
          assert (Il : In l (Q1 ++ l :: Q2)) by (apply in_or_app; simpl; auto). destruct Q' as [|q Q''] eqn:EQ'; [congruence|].
          assert (Iq : In q (Q1 ++ l :: Q2)) by (apply (Permutation_in _ (Permutation_sym PQ)); simpl; auto).
          assert (Nq : l <> q). { intros ->. apply NI. simpl; auto. }
          destruct (conn_neighbour _ l q CQ Il Iq Nq) as (c & Ic & Ec).
          assert (c = p) by (apply Hl; auto; apply in_or_app; auto). subst c.
          split; auto. split; auto. intros z Iz. apply Hl. apply in_or_app; auto. }
        destruct (IH Q' R) as (l' & p' & Il' & LF'); auto. exists l', p'. split; auto. apply UP; auto.
        intros ->. assert (Iq : exists c, In c (Q1 ++ l :: Q2) /\ adj l c = true).
        { destruct Q' as [|q Q'']eqn:EQ'; [congruence|]. apply (conn_neighbour _ l q CQ). apply in_or_app; simpl; auto.
          apply (Permutation_in _ (Permutation_sym PQ)); simpl; auto. intros ->. apply NI. simpl; auto. }
        destruct Iq as (c & Ic & Ec). assert (c = p) by (apply Hl; auto; apply in_or_app; auto). subst c.
        apply (Permutation_in _ PQ) in Ic as [|Ic]; [congruence|]. clear - ND'' Ic Il'. induction Q' as [|q Q' IHq]; [contradiction|].
        simpl in ND''. inversion ND''; subst. destruct Ic as [-> |Ic]; auto. apply H1. apply in_or_app; auto.
  Qed.
End Shape.

Section Elim.
  Context {N : num} (OK : num_ok N).
  Add Field NFieldTree : (ok_field N OK).
  Variable k : kind.
  Variable sz : nat -> nat.
  Variable adj : nat -> nat -> bool.
  Hypothesis adj_sym : forall a b, adj a b = adj b a.
  Hypothesis adj_irr : forall a, adj a a = false.
  Variable psi : nat -> nat -> nat -> nat -> N.
  Hypothesis psi_sym : forall a b i j, psi a b i j = psi b a j i.

  (** product of the potentials of the edges between the nodes of a list *)
  Fixpoint edges_wt (S : list nat) (x : nat -> nat) : N :=
    match S with
    | [] => n1
    | a :: r => (prodL (fun b => psi a b (x a) (x b)) (filter (adj a) r) * edges_wt r x)%num
    end.
  Definition wt (u : nat -> nat -> N) (S : list nat) (x : nat -> nat) : N :=
    (prodL (fun a => u a (x a)) S * edges_wt S x)%num.

  Lemma edges_perm S S' x : Permutation S S' -> edges_wt S x = edges_wt S' x.
  Proof.
    induction 1 as [|a S S' P IH|a b S|S1 S2 S3 P1 IH1 P2 IH2]; simpl; auto.
    - rewrite IH. f_equal. apply prodL_perm; auto. apply filter_perm; auto.
    - rewrite (adj_sym b a). destruct (adj a b); simpl; [rewrite (psi_sym b a)|]; ring.
    - congruence.
  Qed.
  Lemma wt_perm u S S' x : Permutation S S' -> wt u S x = wt u S' x.
  Proof. intros P. unfold wt. rewrite (edges_perm S S' x P), (prodL_perm OK _ S S' P). auto. Qed.
  Lemma wt_agree u S x y : (forall a, In a S -> x a = y a) -> wt u S x = wt u S y.
  Proof.
    intros E. unfold wt. f_equal. apply prodL_ext. intros a I. rewrite E; auto.
    revert E. induction S as [|a S IH]; simpl; intros E; auto. rewrite IH by auto. f_equal.
    apply prodL_ext. intros b I. apply filter_In in I as [I _]. rewrite !E; auto.
  Qed.
  Lemma wt_ext u S : ext (wt u S).
  Proof. intros x y E. apply wt_agree. auto. Qed.
  Lemma wt_cons u a S x : wt u (a :: S) x =
    (u a (x a) * prodL (fun b => psi a b (x a) (x b)) (filter (adj a) S) * wt u S x)%num.
  Proof. unfold wt. simpl. ring. Qed.

  Lemma wt_split u u' S p h x : NoDup S -> In p S -> (forall a i, u' a i = if a =? p then (u p i * h i)%num else u a i) ->
    wt u' S x = (h (x p) * wt u S x)%num.
  Proof.
    intros ND Ip E. unfold wt.
    assert (EU : prodL (fun a => u' a (x a)) S = (h (x p) * prodL (fun a => u a (x a)) S)%num).
    { induction ND as [|a S NI ND IH]; simpl in *. contradiction. rewrite E. destruct (Nat.eqb_spec a p) as [-> |Na].
      - rewrite (prodL_ext (fun a => u' a (x a)) (fun a => u a (x a))). ring. intros b Ib. rewrite E.
        destruct (Nat.eqb_spec b p); subst; auto. contradiction.
      - destruct Ip as [Ip|Ip]; [congruence|]. rewrite IH; auto. ring. }
    rewrite EU. ring.
  Qed.

  (** the unaries and the potentials are not negative *)
  Definition unary_ge (u : nat -> nat -> N) (S : list nat) : Prop := forall a i, In a S -> i < sz a -> (n0 <= u a i)%num.
  Definition psi_ge (S : list nat) : Prop := forall a b i j, In a S -> In b S -> adj a b = true -> i < sz a -> j < sz b -> (n0 <= psi a b i j)%num.

  Lemma wt_nonneg u S x : unary_ge u S -> psi_ge S -> (forall a, In a S -> x a < sz a) -> (n0 <= wt u S x)%num.
  Proof.
    intros GU GP R. unfold wt. apply nmul_nonneg; auto. { apply prodL_nonneg; auto. }
    assert (G : forall S', incl S' S -> (n0 <= edges_wt S' x)%num).
    { induction S' as [|a S' IH]; simpl; intros I. apply nlt_le, nlt_0_1; auto.
      apply nmul_nonneg; auto.
      - apply prodL_nonneg; auto. intros b Ib. apply filter_In in Ib as [Ib Q]. apply GP; auto; try apply R; apply I; simpl; auto.
      - apply IH. intros z Iz. apply I. simpl; auto. }
    apply G, incl_refl.
  Qed.

  Section Messages.
    Variable m : nat -> nat -> nat -> N.
    (** the messages satisfy the equations of the propagation, up to a positive
        factor *)
    Definition fixp (u : nat -> nat -> N) (S : list nat) : Prop :=
      forall a b, In a S -> In b S -> adj a b = true -> exists c, (n0 < c)%num /\
        forall j, j < sz b -> m a b j =
          (c * bigL k (fun i => u a i * prodL (fun z => m z a i) (filter (fun z => negb (Nat.eqb z b)) (nb adj S a)) * psi a b i j) (seq 0 (sz a)))%num.

    Lemma nb_perm S S' a : Permutation S S' -> Permutation (nb adj S a) (nb adj S' a).
    Proof. apply filter_perm. Qed.
    Lemma fixp_perm u S S' : Permutation S S' -> fixp u S -> fixp u S'.
    Proof.
      intros P F a b A B Q. apply (Permutation_in _ (Permutation_sym P)) in A, B. destruct (F a b A B Q) as (c & Pc & E).
      exists c. split; auto. intros j L. rewrite E; auto. f_equal. apply bigL_ext. intros i _. do 2 f_equal. apply prodL_perm; auto.
      apply filter_perm, nb_perm; auto.
    Qed.

    Definition msg_ge (S : list nat) : Prop := forall a b j, In a S -> In b S -> adj a b = true -> j < sz b -> (n0 <= m a b j)%num.

    Variable rank : nat -> nat -> nat.

    Theorem elimination : forall R Q u, NoDup (Q ++ R) -> conn_in adj (Q ++ R) -> ranked adj rank (Q ++ R) -> conn_in adj Q -> Q <> [] ->
      fixp u (Q ++ R) -> unary_ge u (Q ++ R) -> psi_ge (Q ++ R) -> msg_ge (Q ++ R) ->
      exists C, (n0 < C)%num /\ forall x, (forall q, In q Q -> x q < sz q) ->
        osum k sz R (wt u (Q ++ R)) x =
        (C * (wt u Q x * prodL (fun q => prodL (fun z => m z q (x q)) (nb adj R q)) Q))%num.
    Proof.
      intros R. remember (length R) as n eqn:En. revert R En. induction n as [|n IH]; intros R En Q u ND C RK CQ NQ FX GU GP GM.
      - destruct R; [|discriminate]. exists n1. split. apply nlt_0_1; auto. intros x _. rewrite app_nil_r. simpl.
        rewrite (prodL_1 OK (fun q => n1) Q) by auto. ring.
      - assert (NR : R <> []) by (intros ->; discriminate).
        destruct (leaf_outside adj adj_sym adj_irr rank (length (Q ++ R)) Q R (le_n _) ND C RK CQ NQ NR) as (l & p & Il & LF).
        pose proof LF as (_ & Ip & Hl).
        assert (Npl : p <> l). { intros ->. assert (F : adj l l = true) by (apply Hl; auto). rewrite adj_irr in F. discriminate. }
        apply in_split in Il as (R1 & R2 & ER). set (R' := R1 ++ R2).
        assert (PR : Permutation R (l :: R')) by (rewrite ER; symmetry; apply Permutation_middle).
        assert (PS : Permutation (Q ++ R) (l :: Q ++ R')). { rewrite PR. symmetry. apply Permutation_middle. }
        assert (ND' : NoDup (l :: Q ++ R')) by (eapply Permutation_NoDup; eauto). inversion ND' as [|? ? NI ND'']; subst x l0.
        assert (IS : forall z, In z (Q ++ R) <-> z = l \/ In z (Q ++ R')).
        { intros z. split; intros I. apply (Permutation_in _ PS) in I as [-> |I]; auto.
          apply (Permutation_in _ (Permutation_sym PS)). destruct I as [-> |I]; simpl; auto. }
        assert (Ip' : In p (Q ++ R')) by (apply IS in Ip as [|]; auto; contradiction).
        (* neighbours of the leaf *)
        assert (NBL : forall S, incl S (Q ++ R') -> NoDup S -> In p S -> filter (adj l) S = [p]).
        { intros S IN NDS IpS. apply Permutation_length_1_inv. apply NoDup_Permutation.
          - repeat constructor. intros [].
          - apply NoDup_filter; auto.
          - intros z. rewrite filter_In. split. intros [<- |[]]. split; auto. apply Hl; auto.
            intros [Iz Qz]. left. symmetry. apply Hl; auto. apply IS. right. apply IN; auto. }
        set (u' := fun a i => if a =? p then (u p i * m l p i)%num else u a i).
        assert (FX' : fixp u' (Q ++ R')).
        { intros a b A B Qab. destruct (FX a b) as (c & Pc & E); auto. apply IS; auto. apply IS; auto.
          exists c. split; auto. intros j Lj. rewrite E; auto. f_equal. apply bigL_ext. intros i _. f_equal.
          rewrite (prodL_perm OK _ _ (filter (fun z => negb (z =? b)) (nb adj (l :: Q ++ R') a))) by (apply filter_perm, nb_perm; auto).
          unfold nb at 1. simpl filter at 2. assert (Nlb : l <> b) by (intros ->; contradiction).
          unfold u'. destruct (Nat.eqb_spec a p) as [-> |Na].
          + rewrite adj_sym, (proj2 (Hl p Ip) eq_refl). simpl. rewrite (proj2 (Nat.eqb_neq l b) Nlb). simpl. unfold nb. ring.
          + destruct (adj a l) eqn:Qal. exfalso. rewrite adj_sym in Qal. apply Hl in Qal; [contradiction|apply IS; auto]. auto. }
        assert (GU' : unary_ge u' (Q ++ R')).
        { intros a i Ia Li. unfold u'. destruct (Nat.eqb_spec a p) as [-> |Na]; [apply nmul_nonneg; auto|].
          - apply GM; auto. apply IS; auto. apply Hl; auto.
          - apply GU; auto. apply IS; auto. }
        assert (GP' : psi_ge (Q ++ R')). { intros a b i j Ia Ib. apply GP; apply IS; auto. }
        destruct (IH R') with (Q := Q) (u := u') as (C0 & PC0 & EC0); auto.
        { rewrite (Permutation_length PR) in En. simpl in En. lia. }
        { eapply conn_leaf; eauto. }
        { eapply ranked_incl; [|exact RK]. intros z I. apply IS; auto. }
        { intros a b j Ia Ib. apply GM; apply IS; auto. }
        assert (Il : In l (Q ++ R)) by (apply IS; auto).
        destruct (FX l p Il Ip) as (c & Pc & Ec). { apply Hl; auto. }
        assert (Ec' : forall j, j < sz p -> m l p j = (c * bigL k (fun i => u l i * psi l p i j) (seq 0 (sz l)))%num).
        { intros j Lj. rewrite Ec; auto. f_equal. apply bigL_ext. intros i _.
          assert (Z : filter (fun z => negb (z =? p)) (nb adj (Q ++ R) l) = []).
          { apply filter_none. intros z Iz. apply nb_In in Iz as [Iz Qz]. apply Hl in Qz; auto. subst. rewrite Nat.eqb_refl. auto. }
          rewrite Z. simpl. ring. }
        exists (n1 / c * C0)%num. split. { apply ok_mul; auto. apply ndiv_pos; auto. apply nlt_0_1; auto. }
        intros x Hx.
        assert (NDR : NoDup R). { apply (NoDup_app_left R Q). eapply Permutation_NoDup; [apply Permutation_app_comm|exact ND]. }
        assert (NDR' : NoDup (l :: R')) by (eapply Permutation_NoDup; eauto).
        rewrite (osum_perm OK k sz R (R' ++ [l])); auto; [|rewrite PR; apply Permutation_cons_append|apply wt_ext].
        rewrite osum_app.
        assert (PC1 : (n0 < n1 / c)%num) by (apply ndiv_pos; auto; apply nlt_0_1; auto).
        assert (Nc : c <> n0) by (apply nlt_neq'; auto).
        rewrite (osum_factor OK k sz R') with (G := wt u' (Q ++ R')) (c := (n1 / c)%num).
        + rewrite EC0; auto.
          assert (EQ : (wt u' Q x * prodL (fun q => prodL (fun z => m z q (x q)) (nb adj R' q)) Q =
                        wt u Q x * prodL (fun q => prodL (fun z => m z q (x q)) (nb adj R q)) Q)%num).
          { rewrite (prodL_ext (fun q => prodL (fun z => m z q (x q)) (nb adj R q)) (fun q => ((if Nat.eqb q p then m l p (x p) else n1) * prodL (fun z => m z q (x q)) (nb adj R' q))%num)).
            2:{ intros q Iq. rewrite (prodL_perm OK _ (nb adj R q) (nb adj (l :: R') q)) by (apply nb_perm; auto). unfold nb at 1. simpl.
                destruct (Nat.eqb_spec q p) as [-> |Nq].
                - rewrite adj_sym, (proj2 (Hl p Ip) eq_refl). simpl. auto.
                - destruct (adj q l) eqn:Qql. exfalso. rewrite adj_sym in Qql. apply Hl in Qql; [contradiction|]. apply in_or_app; auto. fold (nb adj R' q). ring. }
            rewrite prodL_mul by auto. unfold wt.
            assert (EU : prodL (fun a => u' a (x a)) Q = (prodL (fun a => u a (x a)) Q * prodL (fun q => if Nat.eqb q p then m l p (x p) else n1) Q)%num).
            { rewrite <- prodL_mul by auto. apply prodL_ext. intros a _. unfold u'. destruct (Nat.eqb_spec a p); subst; ring. }
            rewrite EU. ring. }
          rewrite EQ. ring.
        + inversion NDR'; auto.
        + apply nlt_le; auto.
        + intros y [V1 V2]. simpl.
          assert (Lp : y p < sz p).
          { apply in_app_or in Ip' as [I|I]; auto. rewrite V1; auto. intros F. clear - ND'' I F.
            induction Q as [|q Q IHq]; [contradiction|]. simpl in ND''. inversion ND''; subst. destruct I as [-> |I]; auto. apply H1, in_or_app; auto. }
          rewrite (bigL_ext k _ (fun i => (wt u (Q ++ R') y * (u l i * psi l p i (y p)))%num)).
          2:{ intros i _. rewrite (wt_perm u _ _ _ PS), wt_cons. rewrite (NBL (Q ++ R')); auto; [|apply incl_refl].
              simpl. rewrite fupd_eq, (fupd_ne y l i p) by auto.
              rewrite (wt_agree u (Q ++ R') (fupd y l i) y). ring. intros a I. apply fupd_ne. intros ->. contradiction. }
          assert (RG : forall a, In a (Q ++ R') -> y a < sz a).
          { intros a I. destruct (in_dec Nat.eq_dec a R') as [J|J]; auto. apply in_app_or in I as [I|I]; [|contradiction]. rewrite V1; auto. }
          rewrite bigL_mul; auto. 2:{ apply wt_nonneg; auto. intros a i Ia. apply GU. apply IS; auto. }
          rewrite (wt_split u u' (Q ++ R') p (fun i => m l p i) y); auto. rewrite (Ec' (y p) Lp). field. auto.
    Qed.
  End Messages.
End Elim.
