(** Properties C15 - C17: evidence factors, messages, merged unaries. *)
From Coq Require Import String List Arith Bool Lia Permutation QArith Qcanon.
From Verif Require Import Res Num Categoric Combs Func FuncProofs GroupProofs FactorProofs FactorApi Special SpecialProofs P_Categoric P_Factor.
Import ListNotations.
Open Scope nat_scope.

(** the assignment giving [i] to [s] and [j] to any other variable *)
Definition pair_assignment (s : var) (i j : nat) : assignment :=
  fun v => if var_peqb v s then i else j.

Section P.
  Context {N : num} (OK : num_ok N).

  Lemma built_unary (f : func N) v : built f -> f_vars f = [v] -> unary v f /\ unary_nonneg v f.
  Proof.
    intros B E. pose proof (built_good OK f B) as Hg. destruct Hg as ((W & WG) & Hm & Hn).
    assert (U : unary v f) by (split; auto). split; auto. intros k Hk. apply (fval_nonneg OK). split; [split|]; auto.
    rewrite (unary_fsizes v f U). apply valid_1; auto.
  Qed.

  Lemma built_binary (f : func N) x y : built f -> f_vars f = [x; y] -> binary x y f.
  Proof.
    intros B E. destruct (built_solid f B) as ((W & WG) & Hm). split; auto. split; auto.
    destruct WG as [ND _]. apply NoDup_vkey_NoDup in ND. change (g_soup (f_group f)) with (f_vars f) in ND. rewrite E in ND.
    inversion ND; subst. intros ->. apply H1. left; auto.
  Qed.

  Lemma bval_assignment (b : func N) x y s i j : binary x y b -> s = x \/ s = y ->
    bval b s i j = fval b (map (pair_assignment s i j) (f_vars b)).
  Proof.
    intros (W & E & Hne) Hs. unfold bval, pair_assignment. rewrite E. simpl. destruct Hs as [->| ->].
    - rewrite var_peqb_refl. rewrite var_peqb_ne by auto. reflexivity.
    - rewrite var_peqb_refl. rewrite var_peqb_ne by auto. reflexivity.
  Qed.

  Lemma findt_assignment (b : func N) x y s i j : binary x y b -> s = x \/ s = y ->
    i < vsize s -> (forall t, In t [x; y] -> t <> s -> j < vsize t) ->
    f_findt b (map (pair_assignment s i j) (f_vars b)) = Ok (bval b s i j).
  Proof.
    intros B Hs Hi Hj. rewrite (bval_assignment b x y s i j B Hs). apply f_findt_ok. apply B.
    apply proper_valid. intros v Hv. unfold pair_assignment. destruct (var_peqb v s) eqn:E.
    - apply var_peqb_eq in E. subst; auto.
    - apply Hj. destruct B as (_ & E2 & _). rewrite E2 in Hv. auto. intros ->. rewrite var_peqb_refl in E. discriminate.
  Qed.

  (** C15. [b] a factor over two variables, one of which is [ev]; the other
      variable is [hidden]. *)
  Theorem C15_evidence : forall (b : func N) ev hidden value,
    built b -> Permutation (f_vars b) [ev; hidden] -> value < vsize ev ->
    exists e, evidence_factor b ev value = Ok e /\ f_vars e = [hidden] /\
      forall k, k < vsize hidden ->
        f_findt e [k] = f_findt b (map (pair_assignment ev value k) (f_vars b)).
  Proof.
    intros b ev hidden value B P Hv.
    apply Permutation_sym in P. apply Permutation_length_2_inv in P.
    assert (Q : exists x y, binary x y b /\ (ev = x /\ hidden = y \/ ev = y /\ hidden = x)).
    { destruct P as [E|E]; [exists ev, hidden|exists hidden, ev]; split; auto; apply built_binary; auto. }
    destruct Q as (x & y & Bi & Ho).
    destruct (evidence_factor_ok b x y ev hidden value Bi Ho Hv) as (e & E & U & G & X & I).
    exists e. split; auto. split. apply U. intros k Hk. destruct (unary_find _ _ k U Hk) as [_ ->].
    rewrite I by auto. symmetry. apply (findt_assignment b x y); auto.
    - destruct Ho as [[-> ->]|[-> ->]]; auto.
    - intros t Ht Hn. destruct Ho as [[-> ->]|[-> ->]], Ht as [<-|[<-|[]]]; auto; congruence.
  Qed.

  (** the indicator of an observed value *)
  Theorem C15_indicator : forall v value, made v ->
    (value < vsize v /\ exists e, indicator v value = Ok e /\ f_vars e = [v] /\
       forall k, k < vsize v -> f_findt e [k] = Ok (if value =? k then n1 else n0 : N)) \/
    (vsize v <= value /\ indicator (N:=N) v value = Throw).
  Proof.
    intros v value Hm. destruct (le_lt_dec (vsize v) value) as [L|L].
    - right. split; auto. apply indicator_throw; auto.
    - left. split; auto. destruct (indicator_ok (N:=N) v value L) as (e & E & U & G & X & I). exists e. split; auto.
      split. apply U. intros k Hk. destruct (unary_find _ _ k U Hk) as [_ ->]. rewrite I; auto.
  Qed.

  (** C16. What the messages contain: with [s] the sender and [t] the receiver,
      the entry [r] combines, over [a], the belief of the sender at [a] with the
      factor at [s := r], [t := a]. *)
  Theorem C16_message_contents : forall k (u b : func N) s t,
    built u -> f_vars u = [s] -> built b -> Permutation (f_vars b) [s; t] -> vsize s = vsize t ->
    exists m, message k u b = Ok m /\ f_vars m = [t] /\
      forall r us bs, r < vsize t ->
        Forall2 (fun a x => f_findt u [a] = Ok x) (seq 0 (vsize s)) us ->
        Forall2 (fun a x => f_findt b (map (pair_assignment s r a) (f_vars b)) = Ok x) (seq 0 (vsize s)) bs ->
        let products := map (fun p => (fst p * snd p)%num) (combine us bs) in
        exists y, f_findt m [r] = Ok y /\
          match k with
          | SUM => y = fold_right nadd n0 products
          | MAP => In y (nfltmin :: products) /\ forall x, In x (nfltmin :: products) -> (x <= y)%num
          end.
  Proof.
    intros k u b s t Bu Eu Bb P Hsz. apply Permutation_sym in P. apply Permutation_length_2_inv in P.
    assert (Q : exists x y, binary x y b /\ (s = x /\ t = y \/ s = y /\ t = x)).
    { destruct P as [E|E]; [exists s, t|exists t, s]; split; auto; apply built_binary; auto. }
    destruct Q as (x & y & Bi & Ho). destruct (built_unary u s Bu Eu) as [Uu _].
    destruct (message_ok k u b x y s t Uu Bi Ho Hsz) as (m & E & U & G & X & I).
    exists m. split; auto. split. apply U. intros r us bs Hr F1 F2. cbv zeta.
    destruct (unary_find _ _ r U Hr) as [_ Er]. exists (uval m r). split; auto.
    assert (PR : map (fun p => (fst p * snd p)%num) (combine us bs) =
                 map (fun a => (uval u a * bval b s r a)%num) (seq 0 (vsize s))).
    { assert (Hin : forall a, In a (seq 0 (vsize s)) -> a < vsize s) by (intros a Ha; apply in_seq in Ha; lia).
      revert us bs F1 F2 Hin. generalize (seq 0 (vsize s)). induction l as [|a l IH]; intros us bs F1 F2 Hin;
        [inversion F1; subst; auto|inversion F1 as [|? u1 ? us1 Hu Fu]; subst; inversion F2 as [|? b1 ? bs1 Hb Fb]; subst].
      cbn [combine map fst snd]. f_equal.
      - destruct (unary_find _ _ a Uu (Hin a (or_introl eq_refl))) as [_ Ea]. rewrite Ea in Hu. injection Hu as <-.
        rewrite (findt_assignment b x y) in Hb; auto.
        + injection Hb as <-. auto.
        + destruct Ho as [[-> ->]|[-> ->]]; auto.
        + rewrite Hsz; auto.
        + intros v Hv Hn. assert (a < vsize s) by (apply Hin; left; auto).
          destruct Ho as [[-> ->]|[-> ->]], Hv as [<-|[<-|[]]]; try congruence; lia.
      - apply IH; auto. intros; apply Hin; right; auto. }
    rewrite PR. rewrite I by auto. unfold reduce. generalize (map (fun a => (uval u a * bval b s r a)%num) (seq 0 (vsize s))).
    intros l. destruct k; simpl.
    - rewrite (fold_left_sum OK). rewrite (nadd_0_l OK). clear. induction l; simpl; auto.
    - destruct (fold_nmax_spec OK l nfltmin) as (A & B & C). split.
      + destruct C as [C|C]; auto.
      + intros z [<-|Hz]; auto.
  Qed.

  (** the property, for factors that are symmetric *)
  Theorem C16_message_symmetric_partial : forall k (u b : func N) s t,
    built u -> f_vars u = [s] -> built b -> Permutation (f_vars b) [s; t] -> vsize s = vsize t ->
    (forall i j, i < vsize s -> j < vsize s -> f_findt b [i; j] = f_findt b [j; i]) ->
    exists m, message k u b = Ok m /\ f_vars m = [t] /\
      forall r us bs, r < vsize t ->
        Forall2 (fun a x => f_findt u [a] = Ok x) (seq 0 (vsize s)) us ->
        Forall2 (fun a x => f_findt b (map (pair_assignment s a r) (f_vars b)) = Ok x) (seq 0 (vsize s)) bs ->
        let products := map (fun p => (fst p * snd p)%num) (combine us bs) in
        exists y, f_findt m [r] = Ok y /\
          match k with
          | SUM => y = fold_right nadd n0 products
          | MAP => In y (nfltmin :: products) /\ forall x, In x (nfltmin :: products) -> (x <= y)%num
          end.
  Proof.
    intros k u b s t Bu Eu Bb P Hsz Hsym. destruct (C16_message_contents k u b s t Bu Eu Bb P Hsz) as (m & E & V & H).
    exists m. split; auto. split; auto. intros r us bs Hr F1 F2. apply H; auto.
    apply Permutation_sym in P. apply Permutation_length_2_inv in P.
    assert (Hst : s <> t).
    { destruct P as [P|P]; apply (built_binary b _ _ Bb) in P as (_ & _ & Hn); auto. }
    assert (Hin : forall a, In a (seq 0 (vsize s)) -> a < vsize s) by (intros a Ha; apply in_seq in Ha; lia).
    clear F1 H. induction F2 as [|a x l bs Hx F2 IH]; [constructor|]. constructor; [|apply IH; intros; apply Hin; right; auto].
    rewrite <- Hx. assert (Ha : a < vsize s) by (apply Hin; left; auto). assert (Hr' : r < vsize s) by lia.
    unfold pair_assignment. destruct P as [-> | ->]; simpl; rewrite var_peqb_refl; rewrite var_peqb_ne by auto; auto.
  Qed.

  (** C17. *)
  Theorem C17_merged_unaries : forall (fs : list (func N)) v,
    fs <> [] -> (forall f, In f fs -> built f /\ f_vars f = [v]) ->
    (exists m c k0, merged_unaries (map Some fs) = Ok m /\ f_vars m = [v] /\ (n0 < c)%num /\
       (forall k xs, k < vsize v -> Forall2 (fun f x => f_findt f [k] = Ok x) fs xs ->
          f_findt m [k] = Ok (c * fold_right nmul n1 xs)%num) /\
       (forall k x, k < vsize v -> f_findt m [k] = Ok x -> (n0 <= x)%num /\ (x <= n1)%num) /\
       k0 < vsize v /\ f_findt m [k0] = Ok n1) \/
    (merged_unaries (map Some fs) = Nan /\
       forall k xs, k < vsize v -> Forall2 (fun f x => f_findt f [k] = Ok x) fs xs -> fold_right nmul n1 xs = n0).
  Proof.
    intros fs v Hne H.
    assert (F : Forall (unary v) fs) by (apply Forall_forall; intros f Hf; destruct (H f Hf); apply built_unary; auto).
    assert (NN : forall f, In f fs -> unary_nonneg v f) by (intros f Hf; destruct (H f Hf); apply built_unary; auto).
    assert (Pv : 0 < vsize v). { destruct fs as [|f fs]; [congruence|]. inversion F; subst. apply (unary_pos v f); auto. }
    assert (X : forall k xs, k < vsize v -> Forall2 (fun f x => f_findt f [k] = Ok x) fs xs ->
      fold_right nmul n1 xs = prodL (fun f => uval f k) fs).
    { intros k xs Hk F2. clear - F F2 Hk. induction F2; simpl; auto. inversion F; subst.
      destruct (unary_find v x k H2 Hk) as [_ E]. rewrite E in H. injection H as <-. f_equal. auto. }
    assert (D : (exists k, k < vsize v /\ prodL (fun f => uval f k) fs <> n0) \/
                forall k, k < vsize v -> prodL (fun f => uval f k) fs = n0).
    { generalize (vsize v). induction n as [|n [(k & Hk & E)|IH]].
      - right. intros; lia.
      - left. exists k. auto.
      - destruct (neqb (prodL (fun f => uval f n) fs) n0) eqn:E.
        + right. intros k Hk. destruct (Nat.eq_dec k n) as [->|Hkn]; [apply (ok_eqb N OK); auto|apply IH; lia].
        + left. exists n. split; auto. apply (neqb_false OK); auto. }
    destruct D as [D|D].
    - left. destruct (merged_unaries_ok OK v fs F Hne NN D) as (c & m & Pc & E & U & G & XE & I & k1 & Hk1 & E1).
      exists m, c, k1. split; auto. split. apply U. split; auto. split; [|split; [|split]]; auto.
      + intros k xs Hk F2. rewrite (X k xs Hk F2). destruct (unary_find _ _ k U Hk) as [_ ->]. f_equal. apply I; auto.
      + intros k x Hk Hx. destruct (unary_find _ _ k U Hk) as [_ Ex]. rewrite Ex in Hx. injection Hx as <-.
        destruct (I k Hk) as (_ & A & B). auto.
      + destruct (unary_find _ _ k1 U Hk1) as [_ ->]. congruence.
    - right. split. apply (merged_unaries_nan OK v); auto. intros k xs Hk F2. rewrite (X k xs Hk F2). auto.
  Qed.

  (** factors over other variables, or over more variables, are rejected *)
  Theorem C17_other_variables : forall (f0 : func N) fs v,
    (forall f, In f (f0 :: fs) -> built f) -> hd_error (f_vars f0) = Some v ->
    (exists f, In f (f0 :: fs) /\ f_vars f <> [v]) ->
    merged_unaries (map Some (f0 :: fs)) = Throw.
  Proof.
    intros f0 fs v B Hv Hex. unfold merged_unaries. rewrite map_cons. 
    assert (E : vget (f_vars f0) 0 = Ok v).
    { destruct (f_vars f0); simpl in *; [discriminate|]. injection Hv as ->. reflexivity. }
    rewrite E. cbn [rbind]. rewrite <- (map_cons Some). rewrite mergable_dense. clear E Hv.
    assert (G : forall l h, (forall f, In f l -> built f) -> (exists f, In f l /\ f_vars f <> [v]) ->
      rfold merged_merge (map Some l) (dense_fun (N:=N) v h) = Throw).
    { induction l as [|f l IH]; intros h Bl (g & Hg & Hn).
      - destruct Hg.
      - cbn [map rfold].
        assert (DV : f_vars f = [v] \/ f_vars f <> [v]).
        { destruct (list_eq_dec var_eq_dec (f_vars f) [v]); auto. }
        destruct DV as [DV|DV].
        + assert (U : unary v f). { destruct (built_solid f (Bl f (or_introl eq_refl))) as ((W & _) & _). split; auto. }
          rewrite (merged_merge_ok v h f U). cbn [rbind]. apply IH.
          * intros; apply Bl; right; auto.
          * exists g. split; auto. destruct Hg as [<-|]; auto. contradiction.
        + rewrite merged_merge_throw by auto. reflexivity. }
    rewrite G; auto.
  Qed.
End P.

(** C16 as stated fails: the factor is read with exchanged arguments.
    phi(A=0, C=1) = 2 and 0 elsewhere, belief of A concentrated on 0: the message
    to C should be 2 at C=1, it is 2*belief(1) = 0 there. *)
Definition exPhi : res (func QcNum) :=
  m_set (func_ctor (mkGroup [exA; exC] [exA; exC])) [0; 1] (q 2 1).
Definition exBel : res (func QcNum) :=
  m_set (func_ctor (group_single exA)) [0] (q 1 1).
Theorem C16_message_refuted :
  exists (u b m : func QcNum) (s t : var),
    built u /\ f_vars u = [s] /\ built b /\ f_vars b = [s; t] /\ vsize s = vsize t /\
    message SUM u b = Ok m /\
    (* documented value at C=1: sum over a of u(a)*phi(a,1) = 1*2 + 0*0 *)
    f_findt u [0] = Ok (q 1 1) /\ f_findt u [1] = Ok (q 0 1) /\
    f_findt b [0; 1] = Ok (q 2 1) /\ f_findt b [1; 1] = Ok (q 0 1) /\
    f_findt m [1] = Ok (q 0 1).
Proof.
  assert (C : match exBel, exPhi with
   | Ok u, Ok b => gives (f_findt u [0]) (q 1 1) && gives (f_findt u [1]) (q 0 1) && gives (f_findt b [0; 1]) (q 2 1) &&
       gives (f_findt b [1; 1]) (q 0 1) && match message SUM u b with Ok m => gives (f_findt m [1]) (q 0 1) | _ => false end
   | _, _ => false end = true) by (vm_compute; reflexivity).
  destruct exBel as [u| | | |] eqn:Eu; try discriminate C.
  destruct exPhi as [b| | | |] eqn:Eb; try discriminate C.
  destruct (message SUM u b) as [m| | | |] eqn:Em; try (rewrite andb_false_r in C; discriminate C).
  repeat (apply andb_prop in C as [C ?]).
  exists u, b, m, exA, exC.
  assert (Bu : built u).
  { eapply (b_set (func_ctor (group_single exA))); [apply b_ctor; apply bg_single; apply exA_made|reflexivity|exact Eu]. }
  assert (Bb : built b).
  { eapply (b_set (func_ctor (mkGroup [exA; exC] [exA; exC]))); [apply b_ctor|reflexivity|exact Eb].
    apply (bg_ctor [exA; exC]); [repeat constructor; auto using exA_made, exC_made|reflexivity]. }
  assert (Vu : f_vars u = [exA]).
  { destruct (m_set_spec (func_ctor (N:=QcNum) (group_single exA)) [0] (q 1 1)) as [[_ X]|(_ & _ & f & X & _ & G & _)].
    - apply func_ctor_wf. discriminate. repeat constructor.
    - unfold exBel in Eu. rewrite X in Eu. discriminate.
    - unfold exBel in Eu. rewrite X in Eu. injection Eu as ->. unfold f_vars. rewrite G. reflexivity. }
  assert (Vb : f_vars b = [exA; exC]).
  { destruct (m_set_spec (func_ctor (N:=QcNum) (mkGroup [exA; exC] [exA; exC])) [0; 1] (q 2 1)) as [[_ X]|(_ & _ & f & X & _ & G & _)].
    - apply func_ctor_wf. discriminate. repeat constructor.
    - unfold exPhi in Eb. rewrite X in Eb. discriminate.
    - unfold exPhi in Eb. rewrite X in Eb. injection Eb as ->. unfold f_vars. rewrite G. reflexivity. }
  splits; auto; apply gives_eq; auto.
Qed.

(** with different sizes the message is computed on the domain of the sender:
    out of bounds access to the (dense) binary factor *)
Definition exBig : res (func QcNum) :=
  rfold (fun f c => m_set f c (q 1 1)) (all_combs [2; 3]) (func_ctor (mkGroup [exA; exB] [exA; exB])).
Theorem C16_message_sizes_refuted :
  exists (u b : func QcNum), exBig = Ok b /\ u = merged_var exB /\ f_vars u = [exB] /\ message SUM u b = UB.
Proof.
  assert (C : match exBig with Ok b => match message SUM (merged_var exB) b with UB => true | _ => false end | _ => false end = true)
   by (vm_compute; reflexivity).
  destruct exBig as [b| | | |] eqn:Eb; try discriminate C.
  exists (merged_var exB), b. splits; auto. destruct (message SUM (merged_var exB) b); congruence.
Qed.

Print Assumptions C15_evidence.
Print Assumptions C15_indicator.
Print Assumptions C16_message_contents.
Print Assumptions C16_message_symmetric_partial.
Print Assumptions C16_message_refuted.
Print Assumptions C16_message_sizes_refuted.
Print Assumptions C17_merged_unaries.
Print Assumptions C17_other_variables.

(** {1 The hypotheses can be met} *)
Example C15_witness :
  match exBig with
  | Ok b => match evidence_factor b exB 2 with Ok e => gives (f_findt e [1]) (q 1 1) | _ => false end
  | _ => false
  end = true.
Proof. vm_compute. reflexivity. Qed.
Example C16_witness :
  match factor_correlated (N:=QcNum) (mkGroup [exA; exC] [exA; exC]), exBel with
  | Ok b, Ok u => match message MAP u b with Ok m => gives (f_findt m [0]) (q 1 1) | _ => false end
  | _, _ => false
  end = true.
Proof. vm_compute. reflexivity. Qed.
Example C17_witness :
  match exBel with
  | Ok u => match merged_unaries [Some u; Some u; Some (merged_var exA)] with
            | Ok m => gives (f_findt m [0]) (q 1 1) && gives (f_findt m [1]) (q 0 1)
            | _ => false
            end
  | _ => false
  end = true.
Proof. vm_compute. reflexivity. Qed.
(** a null product *)
Example C17_witness_nan :
  merged_unaries [Some (func_ctor (N:=QcNum) (group_single exA))] = Nan.
Proof. vm_compute. reflexivity. Qed.
