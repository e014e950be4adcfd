(** Lemmas about the unary factors of Special.v *)
From Coq Require Import List Arith Bool Lia Permutation Field Ring.
From Verif Require Import Res Num Categoric Combs Func FuncProofs GroupProofs FactorProofs FactorApi Special.
Import ListNotations.
Open Scope nat_scope.

Lemma all_combs_1 n : all_combs [n] = map (fun k => [k]) (seq 0 n).
Proof.
  simpl. induction (seq 0 n) as [|x l IH]; simpl; f_equal.
Qed.

Lemma valid_1 n k : valid_comb [n] [k] <-> k < n.
Proof. split; intros H. inversion H; auto. constructor; auto. Qed.

Lemma valid_2 n m i j : valid_comb [n; m] [i; j] <-> i < n /\ j < m.
Proof.
  split; intros H. inversion H; subst. inversion H5; subst; auto.
  repeat constructor; tauto.
Qed.

Lemma all_combs_2 n m : all_combs [n; m] = flat_map (fun i => map (fun j => [i; j]) (seq 0 m)) (seq 0 n).
Proof.
  change (all_combs [n; m]) with (flat_map (fun c => map (cons c) (all_combs [m])) (seq 0 n)).
  rewrite all_combs_1. apply flat_map_ext. intros i. rewrite map_map. reflexivity.
Qed.

Lemma rfold_flat_map {A B S} (f : S -> B -> res S) (g : A -> list B) l : forall s,
  rfold f (flat_map g l) s = rfold (fun s a => rfold f (g a) s) l s.
Proof.
  induction l as [|a l IH]; intros s; simpl; auto. rewrite rfold_app.
  destruct (rfold f (g a) s); simpl; auto.
Qed.

Lemma nth_map_seq {A} (h : nat -> A) n k d : k < n -> nth k (map h (seq 0 n)) d = h k.
Proof.
  intros H. rewrite nth_indep with (d' := h 0) by (rewrite map_length, seq_length; auto).
  rewrite map_nth, seq_nth by auto. reflexivity.
Qed.

Section SP.
  Context {N : num} (OK : num_ok N).
  Implicit Types f b u m : func N.
  Add Field NFieldS : (ok_field N OK).

  (** a factor over the only variable [v], a factor over two variables *)
  Definition unary (v : var) f : Prop := wf_func f /\ f_vars f = [v].
  Definition binary (x y : var) f : Prop := wf_func f /\ f_vars f = [x; y] /\ x <> y.

  (** value of a unary factor *)
  Definition uval f (k : nat) : N := fval f [k].
  (** value of a binary factor when the variable [s] is [a] and the other is [b] *)
  Definition bval f (s : var) (a b : nat) : N :=
    match f_vars f with
    | x :: _ => if var_peqb x s then fval f [a; b] else fval f [b; a]
    | [] => n0
    end.

  Definition unary_nonneg v f : Prop := forall k, k < vsize v -> (n0 <= uval f k)%num.

  Lemma unary_fsizes v f : unary v f -> fsizes f = [vsize v].
  Proof. intros [W E]. unfold fsizes, sizes_of. change (g_soup (f_group f)) with (f_vars f). rewrite E. reflexivity. Qed.

  Lemma unary_pos v f : unary v f -> 0 < vsize v.
  Proof.
    intros [W E]. pose proof (wf_sizes f W) as H. unfold sizes_of in H.
    change (g_soup (f_group f)) with (f_vars f) in H. rewrite E in H. inversion H; auto.
  Qed.

  Lemma binary_fsizes x y f : binary x y f -> fsizes f = [vsize x; vsize y].
  Proof. intros (W & E & _). unfold fsizes, sizes_of. change (g_soup (f_group f)) with (f_vars f). rewrite E. reflexivity. Qed.

  Lemma binary_pos x y f : binary x y f -> 0 < vsize x /\ 0 < vsize y.
  Proof.
    intros H. pose proof (binary_fsizes _ _ _ H) as E. destruct H as (W & _). pose proof (wf_sizes f W) as F.
    unfold fsizes in E. rewrite E in F. inversion F; subst. inversion H2; auto.
  Qed.

  Lemma var_peqb_refl v : var_peqb v v = true.
  Proof. apply var_peqb_eq; auto. Qed.
  Lemma var_peqb_ne v w : v <> w -> var_peqb v w = false.
  Proof. intros H. destruct (var_peqb v w) eqn:E; auto. apply var_peqb_eq in E. contradiction. Qed.

  Lemma unary_var_ok v f : f_vars f = [v] -> unary_var f = Ok v.
  Proof. intros E. unfold unary_var. rewrite E. reflexivity. Qed.

  Lemma unary_each v f : unary v f -> f_each true f = Ok (map (fun k => ([k], uval f k)) (seq 0 (vsize v))).
  Proof.
    intros U. rewrite f_each_ok by apply U. rewrite (unary_fsizes v f U), all_combs_1, map_map. reflexivity.
  Qed.

  Lemma unary_find v f k : unary v f -> k < vsize v -> f_find f [k] = Ok (fimg f [k]) /\ f_findt f [k] = Ok (uval f k).
  Proof.
    intros U H. assert (V : valid_comb (fsizes f) [k]) by (rewrite (unary_fsizes v f U); apply valid_1; auto).
    split. apply f_find_ok; auto; apply U. apply f_findt_ok; auto; apply U.
  Qed.

  Lemma unary_ctor v : 0 < vsize v -> unary v (func_ctor (N:=N) (group_single v)).
  Proof. intros H. split; auto. apply func_ctor_wf. discriminate. repeat constructor; auto. Qed.

  (** {1 Evidence} *)
  Lemma evidence_factor_ok b x y ev other value :
    binary x y b -> (ev = x /\ other = y \/ ev = y /\ other = x) -> value < vsize ev ->
    exists e, evidence_factor b ev value = Ok e /\ unary other e /\ f_group e = group_single other /\ f_exp e = None /\
      forall k, k < vsize other -> uval e k = bval b ev value k.
  Proof.
    intros B Ho Hv. pose proof (binary_fsizes _ _ _ B) as ES. destruct (binary_pos _ _ _ B) as [Px Py].
    destruct B as (W & E & Hne).
    assert (Hoev : other <> ev) by (destruct Ho as [[-> ->]|[-> ->]]; auto).
    assert (Po : 0 < vsize other) by (destruct Ho as [[-> ->]|[-> ->]]; auto).
    assert (E1 : get_other_var b ev = Ok other).
    { unfold get_other_var. rewrite E. destruct Ho as [[-> ->]|[-> ->]].
      - rewrite var_peqb_refl. reflexivity.
      - rewrite var_peqb_ne by auto. reflexivity. }
    set (pos := if var_peqb y other then (1, 0) else (0, 1)).
    assert (E2 : get_positions b other = Ok pos).
    { unfold get_positions. rewrite E. reflexivity. }
    set (step := fun d (e : list nat * N) =>
      (let* ce := vget (fst e) (snd pos) in
       if ce =? value then let* ch := vget (fst e) (fst pos) in f_set d [ch] (snd e) else Ok d)).
    assert (E3 : evidence_factor b ev value =
      rfold step (map (fun c => (c, fval b c)) (flat_map (fun i => map (fun j => [i; j]) (seq 0 (vsize y))) (seq 0 (vsize x))))
         (func_ctor (group_single other))).
    { unfold evidence_factor. rewrite E1. cbn [rbind]. rewrite (unary_var_ok other) by reflexivity. cbn [rbind].
      rewrite E2. cbn [rbind]. rewrite f_each_ok by auto. rewrite ES, all_combs_2.
      unfold step. destruct pos. reflexivity. }
    rewrite E3. clear E3.
    (* generic fold *)
    set (cs := flat_map _ _).
    assert (VC : forall c, In c cs -> exists i j, c = [i; j] /\ i < vsize x /\ j < vsize y).
    { intros c H. unfold cs in H. apply in_flat_map in H as (i & Hi & H). apply in_map_iff in H as (j & <- & Hj).
      apply in_seq in Hi, Hj. exists i, j. split; auto; lia. }
    set (key := fun (c : list nat) => if var_peqb y other then (nth 0 c 0, nth 1 c 0) else (nth 1 c 0, nth 0 c 0)).
    assert (G : forall cs, (forall c, In c cs -> exists i j, c = [i; j] /\ i < vsize x /\ j < vsize y) ->
      forall d, unary other d -> f_exp d = None ->
      exists d', rfold step (map (fun c => (c, fval b c)) cs) d = Ok d' /\ unary other d' /\ f_group d' = f_group d /\ f_exp d' = None /\
        forall k, k < vsize other ->
          fimg d' [k] = fimg d [k] /\ (forall c, In c cs -> key c <> (value, k)) \/
          exists c, In c cs /\ key c = (value, k) /\ fimg d' [k] = fval b c).
    { clear cs VC. induction cs as [|c cs IH]; intros HV d Ud Xd; simpl.
      - exists d. splits; auto.
      - destruct (HV c (or_introl eq_refl)) as (i & j & -> & Hi & Hj).
        assert (HS : exists d1, step d ([i; j], fval b [i; j]) = Ok d1 /\ unary other d1 /\ f_group d1 = f_group d /\ f_exp d1 = None /\
           forall k, k < vsize other -> fimg d1 [k] = if (fst (key [i; j]) =? value) && (snd (key [i; j]) =? k) then fval b [i; j] else fimg d [k]).
        { assert (T : exists h e, key [i; j] = (e, h) /\ h < vsize other /\ step d ([i; j], fval b [i; j]) =
             if e =? value then f_set d [h] (fval b [i; j]) else Ok d).
          { unfold step, key, pos. destruct Ho as [[-> ->]|[-> ->]].
            - rewrite var_peqb_refl. exists j, i. auto.
            - rewrite var_peqb_ne by auto. exists i, j. auto. }
          destruct T as (h & e & -> & Hh & ->). simpl.
          destruct (e =? value) eqn:Ee.
          - destruct (f_set_ok d [h] (fval b [i; j]) (proj1 Ud)) as (d1 & A & W1 & G1 & X1 & I1).
            { rewrite (unary_fsizes _ _ Ud). apply valid_1. auto. }
            exists d1. split; auto. split. { split; auto. unfold f_vars. rewrite G1. apply Ud. }
            split; auto. split; [congruence|]. intros k Hk. rewrite I1 by (rewrite (unary_fsizes _ _ Ud); apply valid_1; auto).
            simpl. rewrite andb_true_r. reflexivity.
          - exists d. repeat split; auto; apply Ud. }
        destruct HS as (d1 & -> & U1 & G1 & X1 & I1). cbn [rbind].
        destruct (IH (fun c Hc => HV c (or_intror Hc)) d1 U1 X1) as (d' & A & U' & G' & X' & I').
        exists d'. split; auto. split; auto. split; [congruence|]. split; auto. intros k Hk.
        destruct (I' k Hk) as [[Ea Eb]|(c & Hc & Kc & Ec)].
        + rewrite Ea, (I1 k Hk).
          destruct ((fst (key [i; j]) =? value) && (snd (key [i; j]) =? k)) eqn:Q.
          * right. exists [i; j]. apply andb_true_iff in Q as [Q1 Q2]. apply Nat.eqb_eq in Q1, Q2.
            split. left; auto. split; auto. rewrite <- Q1, <- Q2. destruct (key [i; j]); auto.
          * left. split; auto. intros c [<-|Hc]; auto. intros K. rewrite K in Q. simpl in Q. rewrite !Nat.eqb_refl in Q. discriminate.
        + right. exists c. split. right; auto. auto. }
    destruct (G cs VC _ (unary_ctor other Po) eq_refl) as (d' & A & U' & G' & X' & I').
    exists d'. split; auto. split; auto. split; auto. split; auto. intros k Hk.
    unfold uval, fval at 1, transform. rewrite X'. destruct (I' k Hk) as [[_ Hno]|(c & Hc & Kc & Ec)].
    - exfalso. destruct Ho as [[-> ->]|[-> ->]].
      + apply (Hno [value; k]).
        * unfold cs. apply in_flat_map. exists value. split. apply in_seq; lia. apply in_map_iff. exists k. split; auto. apply in_seq; lia.
        * unfold key. rewrite var_peqb_refl. reflexivity.
      + apply (Hno [k; value]).
        * unfold cs. apply in_flat_map. exists k. split. apply in_seq; lia. apply in_map_iff. exists value. split; auto. apply in_seq; lia.
        * unfold key. rewrite var_peqb_ne by auto. reflexivity.
    - rewrite Ec. unfold bval. rewrite E. destruct (VC c Hc) as (i & j & -> & Hi & Hj). unfold key in Kc.
      destruct Ho as [[-> ->]|[-> ->]].
      + rewrite var_peqb_refl in *. simpl in Kc. congruence.
      + rewrite var_peqb_ne in * by auto. simpl in Kc. congruence.
  Qed.

  (** {1 Indicator} *)
  Lemma indicator_ok v value : value < vsize v ->
    exists e, indicator v value = Ok e /\ unary v e /\ f_group e = group_single v /\ f_exp e = None /\
      forall k, k < vsize v -> uval e k = if value =? k then n1 else n0 :> N.
  Proof.
    intros H. unfold indicator. destruct (Nat.leb_spec (vsize v) value); [lia|].
    assert (P : 0 < vsize v) by lia. pose proof (unary_ctor v P) as U.
    destruct (f_set_ok _ [value] n1 (proj1 U)) as (e & A & W & G & X & I).
    { rewrite (unary_fsizes _ _ U). apply valid_1; auto. }
    exists e. split; auto. split. { split; auto. unfold f_vars. rewrite G. reflexivity. } split; auto. split; auto.
    intros k Hk. unfold uval, fval, transform. rewrite X. cbn [f_exp func_ctor].
    rewrite I by (rewrite (unary_fsizes _ _ U); apply valid_1; auto). simpl. rewrite andb_true_r, func_ctor_img.
    reflexivity.
  Qed.

  Lemma indicator_throw v value : vsize v <= value -> indicator (N:=N) v value = Throw.
  Proof. intros H. unfold indicator. apply Nat.leb_le in H. rewrite H. reflexivity. Qed.

  (** {1 Merged unaries} *)
  Definition dense_fun (v : var) (h : nat -> N) : func N :=
    mkFunc (group_single v) (make_info (group_single v)) (Dense (map h (seq 0 (vsize v)))) None.

  Lemma dense_fun_unary v h : 0 < vsize v -> unary v (dense_fun v h).
  Proof.
    intros H. split; auto. split; simpl; auto. discriminate. repeat constructor; auto.
    rewrite map_length, seq_length. lia.
  Qed.

  Lemma dense_fun_val v h k : k < vsize v -> uval (dense_fun v h) k = h k.
  Proof.
    intros H. unfold uval, fval, transform, fimg, dense_fun, fsizes, sizes_of; simpl.
    replace (k * 1 + 0) with k by lia. apply nth_map_seq; auto.
  Qed.

  Lemma mergable_dense v : mergable v = dense_fun v (fun _ => n1).
  Proof.
    unfold mergable, dense_fun. do 2 f_equal. generalize 0. induction (vsize v); simpl; intros; f_equal; auto.
  Qed.

  Lemma merge_loop_map (h g : nat -> N) l :
    merge_loop (map h l) (map (fun k => ([k], g k)) l) = Ok (map (fun k => (h k * g k)%num) l).
  Proof. induction l as [|k l IH]; simpl; auto. rewrite IH. reflexivity. Qed.

  Lemma merged_merge_ok v h f : unary v f ->
    merged_merge (dense_fun v h) (Some f) = Ok (dense_fun v (fun k => (h k * uval f k)%num)).
  Proof.
    intros U. unfold merged_merge. rewrite (unary_var_ok v) by reflexivity. cbn [rbind].
    destruct U as [W E] eqn:EU. rewrite E. simpl length. simpl negb. cbn [rbind vget nth_error].
    rewrite var_peqb_refl. simpl negb. cbv iota. unfold mergable_merge. simpl f_data. cbv iota.
    rewrite (unary_each v f U). cbn [rbind]. rewrite merge_loop_map. reflexivity.
  Qed.

  Lemma merged_merge_throw v h f : f_vars f <> [v] ->
    merged_merge (dense_fun v h) (Some f) = Throw.
  Proof.
    intros U. unfold merged_merge. rewrite (unary_var_ok v) by reflexivity. cbn [rbind].
    destruct (f_vars f) as [|w [|]]; simpl; auto.
    destruct (var_peqb w v) eqn:E; auto. apply var_peqb_eq in E. congruence.
  Qed.

  Lemma dense_fun_ext v h g : (forall k, k < vsize v -> h k = g k) -> dense_fun v h = dense_fun v g.
  Proof. intros H. unfold dense_fun. do 2 f_equal. apply map_ext_in. intros k Hk. apply H. apply in_seq in Hk; lia. Qed.

  Lemma merged_fold_ok v fs : Forall (unary v) fs -> forall h,
    rfold merged_merge (map Some fs) (dense_fun v h) = Ok (dense_fun v (fun k => (h k * prodL (fun f => uval f k) fs)%num)).
  Proof.
    induction 1 as [|f fs U F IH]; intros h; cbn [map rfold].
    - f_equal. apply dense_fun_ext. intros. simpl. ring.
    - rewrite (merged_merge_ok v h f U). cbn [rbind]. rewrite IH. f_equal. apply dense_fun_ext. intros. simpl. ring.
  Qed.

  Lemma fold_nmax_spec l : forall x : N,
    (x <= fold_left nmax l x)%num /\ (forall y, In y l -> (y <= fold_left nmax l x)%num) /\
    (fold_left nmax l x = x \/ In (fold_left nmax l x) l).
  Proof.
    induction l as [|z l IH]; intros x; simpl.
    - split. apply (nle_refl OK). split; auto. intros y [].
    - destruct (IH (nmax x z)) as (A & B & C). split; [|split].
      + eapply (nle_trans OK); [|exact A]. apply (nmax_le_l OK).
      + intros y [<-|Hy]; auto. eapply (nle_trans OK); [|exact A]. apply (nmax_le_r OK).
      + destruct C as [C|C]; auto. destruct (nmax_cases x z) as [D|D]; rewrite D in C; rewrite D; auto.
  Qed.

  Lemma max_element_spec (h : nat -> N) n : 0 < n ->
    exists m : N, max_element (map h (seq 0 n)) = Ok m /\
      (forall k, k < n -> (h k <= m)%num) /\ exists k, k < n /\ h k = m.
  Proof.
    intros P. destruct n as [|n]; [lia|]. simpl. destruct (fold_nmax_spec (map h (seq 1 n)) (h 0)) as (A & B & C).
    eexists. split; [reflexivity|]. split.
    - intros [|k] Hk; auto. apply B. apply in_map_iff. exists (S k). split; auto. apply in_seq. lia.
    - destruct C as [C|C]; [exists 0; split; auto; lia|]. apply in_map_iff in C as (k & E & Hk). apply in_seq in Hk.
      exists k. split; auto. lia.
  Qed.

  Lemma merged_unaries_eq v fs (m : N) : Forall (unary v) fs -> fs <> [] ->
    max_element (map (fun k => prodL (fun f => uval f k) fs) (seq 0 (vsize v))) = Ok m ->
    merged_unaries (map Some fs) =
      if neqb m n0 then Nan else Ok (dense_fun v (fun k => (prodL (fun f => uval f k) fs * (n1 / m))%num)).
  Proof.
    intros F Hne Hm. destruct fs as [|f0 fs]; [congruence|]. unfold merged_unaries.
    cbn [map]. rewrite <- (map_cons Some). destruct (Forall_inv F) as [W0 E0].
    rewrite E0. cbn [vget nth_error rbind]. rewrite mergable_dense.
    rewrite (merged_fold_ok v (f0 :: fs) F). cbn [rbind]. unfold mergable_normalize. simpl f_data. cbv iota.
    rewrite (map_ext_in _ (fun k => prodL (fun f => uval f k) (f0 :: fs))).
    2:{ intros k _. simpl. ring. }
    rewrite Hm. cbn [rbind]. rewrite (ok_dz N OK). destruct (neqb m n0); auto. f_equal. unfold with_data, dense_fun. simpl. do 2 f_equal.
    rewrite map_map. apply map_ext_in. intros k _. reflexivity.
  Qed.

  Lemma merged_unaries_ok v fs : Forall (unary v) fs -> fs <> [] ->
    (forall f, In f fs -> unary_nonneg v f) ->
    (exists k, k < vsize v /\ prodL (fun f => uval f k) fs <> n0) ->
    exists c m, (n0 < c)%num /\ merged_unaries (map Some fs) = Ok m /\ unary v m /\ f_group m = group_single v /\
      f_exp m = None /\
      (forall k, k < vsize v -> uval m k = (c * prodL (fun f => uval f k) fs)%num /\ (uval m k <= n1)%num /\ (n0 <= uval m k)%num) /\
      exists k, k < vsize v /\ uval m k = n1.
  Proof.
    intros F Hne NN (k0 & Hk0 & Hp).
    assert (P : 0 < vsize v) by lia.
    assert (NNp : forall k, k < vsize v -> (n0 <= prodL (fun f => uval f k) fs)%num).
    { intros k Hk. apply (prodL_nonneg OK). intros f Hf. apply NN; auto. }
    destruct (max_element_spec (fun k => prodL (fun f => uval f k) fs) (vsize v) P) as (m & Em & Hle & km & Hkm & Ekm).
    assert (Pm : (n0 < m)%num).
    { assert (L : (n0 <= m)%num) by (rewrite <- Ekm; auto). apply (nle_lt_eq OK) in L as [L|L]; auto. exfalso. apply Hp.
      apply (nle_antisym OK); auto. rewrite L. auto. }
    assert (Nm : m <> n0) by (intros E; subst m; rewrite E in Pm; eapply (nlt_irr OK); eauto).
    pose proof (merged_unaries_eq v fs m F Hne Em) as E.
    assert (Z : neqb m n0 = false) by (apply (neqb_false OK); auto). rewrite Z in E.
    assert (Pc : (n0 < n1 / m)%num) by (apply (ninv_pos OK); auto).
    exists (n1 / m)%num, (dense_fun v (fun k => (prodL (fun f => uval f k) fs * (n1 / m))%num)).
    split; auto. split; auto. split. apply dense_fun_unary; auto. split; auto. split; auto.
    assert (Lm : forall k, k < vsize v -> (prodL (fun f => uval f k) fs * (n1 / m) <= n1)%num).
    { intros k Hk. assert (Eq : (n1 : N) = (m * (n1 / m))%num) by (field; auto).
      pose proof (nmul_le_l OK (n1 / m)%num _ _ (nlt_le OK _ _ Pc) (Hle k Hk)) as L.
      rewrite (nmul_comm OK _ m), <- Eq in L. rewrite (nmul_comm OK). exact L. }
    split.
    - intros k Hk. rewrite dense_fun_val by auto. split; [ring|]. split; auto.
      apply (nmul_nonneg OK); auto. apply (nlt_le OK); auto.
    - exists km. split; auto. rewrite dense_fun_val by auto. rewrite Ekm. field; auto.
  Qed.

  Lemma merged_unaries_nan v fs : Forall (unary v) fs -> fs <> [] -> 0 < vsize v ->
    (forall k, k < vsize v -> prodL (fun f => uval f k) fs = n0) ->
    merged_unaries (map Some fs) = Nan.
  Proof.
    intros F Hne P Z.
    destruct (max_element_spec (fun k => prodL (fun f => uval f k) fs) (vsize v) P) as (m & Em & Hle & km & Hkm & Ekm).
    rewrite (merged_unaries_eq v fs m F Hne Em). rewrite Z in Ekm by auto.
    assert (E : neqb m n0 = true) by (apply (ok_eqb N OK); auto). rewrite E. reflexivity.
  Qed.

  Lemma merged_unaries_perm v fs gs : Permutation fs gs -> Forall (unary v) fs ->
    merged_unaries (map Some fs) = merged_unaries (map Some gs).
  Proof.
    intros P F. destruct fs as [|f0 fs0] eqn:E.
    { apply Permutation_nil in P. subst. reflexivity. }
    rewrite <- E in *. assert (Hne : fs <> []) by (subst; discriminate). clear E.
    assert (Hne' : gs <> []). { intros ->. symmetry in P. apply Permutation_nil in P. contradiction. }
    assert (F' : Forall (unary v) gs) by (eapply Permutation_Forall; eauto).
    assert (Pv : 0 < vsize v). { destruct fs; [congruence|]. apply (unary_pos v f). inversion F; auto. }
    assert (EP : forall k, prodL (fun f => uval f k) fs = prodL (fun f => uval f k) gs).
    { intros k. apply (prodL_perm OK). auto. }
    destruct (max_element_spec (fun k => prodL (fun f => uval f k) fs) (vsize v) Pv) as (m & Em & _).
    rewrite (merged_unaries_eq v fs m F Hne Em).
    rewrite (merged_unaries_eq v gs m F' Hne').
    2:{ rewrite <- Em. f_equal. apply map_ext. intros; auto. }
    destruct (neqb m n0); auto. f_equal. apply dense_fun_ext. intros. rewrite EP. reflexivity.
  Qed.

  (** {1 Messages} *)
  Definition reduce (k : kind) (l : list N) : N := fold_left (red_update k) l (red_init k).

  Lemma rfold_pure {A S} (f : S -> A -> S) l : forall s, rfold (fun s a => Ok (f s a)) l s = Ok (fold_left f l s).
  Proof. induction l; simpl; auto. Qed.

  Lemma fold_set_unary v (h : nat -> N) : 0 < vsize v -> forall n,
    n <= vsize v ->
    exists f', rfold (fun d r => f_set d [r] (h r)) (seq 0 n) (func_ctor (group_single v)) = Ok f' /\
      unary v f' /\ f_group f' = group_single v /\ f_exp f' = None /\
      forall k, k < vsize v -> fimg f' [k] = if k <? n then h k else n0.
  Proof.
    intros P n. induction n as [|n IH]; intros Hn.
    - simpl. eexists. split; [reflexivity|]. split. apply unary_ctor; auto. auto.
    - destruct IH as (f1 & A & U & G & X & I); [lia|].
      rewrite seq_S, rfold_app, A. cbn [rbind rfold plus].
      destruct (f_set_ok f1 [n] (h n) (proj1 U)) as (f2 & A2 & W2 & G2 & X2 & I2).
      { rewrite (unary_fsizes _ _ U). apply valid_1; lia. }
      rewrite A2. cbn [rbind]. exists f2. split; auto. split. { split; auto. unfold f_vars; rewrite G2; apply U. }
      split; [congruence|]. split; [congruence|]. intros k Hk.
      rewrite I2 by (rewrite (unary_fsizes _ _ U); apply valid_1; lia). simpl. rewrite andb_true_r.
      rewrite (I k Hk). destruct (Nat.eqb_spec n k).
      + subst. destruct (Nat.ltb_spec k (S k)); auto; lia.
      + destruct (Nat.ltb_spec k n), (Nat.ltb_spec k (S n)); auto; lia.
  Qed.

  Lemma rfold_ext_in {A S} (f g : S -> A -> res S) l :
    (forall s a, In a l -> f s a = g s a) -> forall s, rfold f l s = rfold g l s.
  Proof.
    induction l as [|a l IH]; intros H s; simpl; auto. rewrite H by (left; auto).
    destruct (g s a); simpl; auto. apply IH. intros. apply H. right; auto.
  Qed.

  (** the message from [s] to [t]: note the exchanged arguments of the factor *)
  Lemma message_ok k u b x y s t :
    unary s u -> binary x y b -> (s = x /\ t = y \/ s = y /\ t = x) -> vsize s = vsize t ->
    exists m, message k u b = Ok m /\ unary t m /\ f_group m = group_single t /\ f_exp m = None /\
      forall r, r < vsize t ->
        uval m r = reduce k (map (fun a => (uval u a * bval b s r a)%num) (seq 0 (vsize s))).
  Proof.
    intros U B Hst Hsz. pose proof (binary_fsizes _ _ _ B) as ES. destruct (binary_pos _ _ _ B) as [Px Py].
    destruct B as (W & E & Hne). unfold message. rewrite (unary_var_ok s) by apply U. cbn [rbind].
    assert (E1 : get_other_var b s = Ok t).
    { unfold get_other_var. rewrite E. destruct Hst as [[-> ->]|[-> ->]].
      - rewrite var_peqb_refl. reflexivity.
      - rewrite var_peqb_ne by auto. reflexivity. }
    rewrite E1. cbn [rbind]. unfold fill_message. rewrite (unary_var_ok s) by apply U. cbn [rbind].
    set (ps := if var_peqb y s then 1 else 0).
    assert (E2 : get_positions b s = Ok (ps, 1 - ps)).
    { unfold get_positions, ps. rewrite E. simpl. destruct (var_peqb y s); auto. }
    rewrite E2. cbn [rbind].
    assert (E3 : vget (f_vars b) ps = Ok s).
    { unfold ps. rewrite E. destruct Hst as [[-> ->]|[-> ->]].
      - rewrite var_peqb_ne by auto. auto.
      - rewrite var_peqb_refl. auto. }
    rewrite E3. cbn [rbind].
    assert (Pt : 0 < vsize t) by (destruct Hst as [[-> ->]|[-> ->]]; auto).
    rewrite (rfold_ext_in _ (fun d r => f_set d [r] (reduce k (map (fun a => (uval u a * bval b s r a)%num) (seq 0 (vsize s)))))).
    2:{ intros d r Hr. apply in_seq in Hr. rewrite (unary_each s u U). cbn [rbind].
        rewrite rfold_map.
        rewrite (rfold_ext_in _ (fun val a => Ok (red_update k val (uval u a * bval b s r a)%num))).
        - rewrite rfold_pure. cbn [rbind]. f_equal. unfold reduce.
          generalize (red_init (N:=N) k). generalize (seq 0 (vsize s)).
          clear. induction l; simpl; auto.
        - intros val a Ha. apply in_seq in Ha. cbn [fst snd vget nth_error rbind].
          unfold ps, bval. rewrite E. destruct Hst as [[-> ->]|[-> ->]].
          + rewrite var_peqb_refl. rewrite var_peqb_ne by auto. simpl.
            rewrite f_findt_ok; auto. rewrite ES. apply valid_2. split; lia.
          + rewrite var_peqb_refl. rewrite var_peqb_ne by auto. simpl.
            rewrite f_findt_ok; auto. rewrite ES. apply valid_2. split; lia. }
    destruct (fold_set_unary t (fun r => reduce k (map (fun a => (uval u a * bval b s r a)%num) (seq 0 (vsize s)))) Pt (vsize s) ltac:(lia))
      as (m & A & Um & Gm & Xm & Im).
    exists m. split; auto. split; auto. split; auto. split; auto. intros r Hr. unfold uval at 1, fval, transform. rewrite Xm.
    rewrite Im by auto. destruct (Nat.ltb_spec r (vsize s)); [reflexivity|lia].
  Qed.
End SP.
