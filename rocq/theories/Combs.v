(** Specification of joint domains: valid combinations, lexicographic order,
    mixed-radix index; and the facts about them used everywhere. *)
From Coq Require Import List Arith Bool Lia Permutation Sorted.
From Verif Require Import Res Categoric.
Import ListNotations.

(** a combination of the joint domain of variables with these sizes *)
Definition valid_comb (sizes comb : list nat) : Prop := Forall2 lt comb sizes.

(** lexicographic order, the first position being the most significant *)
Inductive lex_lt : list nat -> list nat -> Prop :=
| lex_head : forall x y a b, x < y -> length a = length b -> lex_lt (x :: a) (y :: b)
| lex_tail : forall x a b, lex_lt a b -> lex_lt (x :: a) (x :: b).

(** all the valid combinations *)
Fixpoint all_combs (sizes : list nat) : list (list nat) :=
  match sizes with
  | [] => [[]]
  | s :: r => flat_map (fun i => map (cons i) (all_combs r)) (seq 0 s)
  end.

Fixpoint prodn (l : list nat) : nat :=
  match l with [] => 1 | x :: r => x * prodn r end.

(** mixed-radix index, last position fastest *)
Fixpoint idx (sizes comb : list nat) : nat :=
  match sizes, comb with
  | s :: ss, c :: cs => c * prodn ss + idx ss cs
  | _, _ => 0
  end.

(** {1 Lemmas} *)

Lemma fold_mul_prodn l a : fold_left Nat.mul l a = a * prodn l.
Proof.
  revert a; induction l as [|x l IH]; simpl; intros a. lia. rewrite IH. lia.
Qed.
Lemma sizes_prod_prodn l : sizes_prod l = prodn l.
Proof. unfold sizes_prod. rewrite fold_mul_prodn. lia. Qed.

Lemma prodn_pos l : Forall (lt 0) l -> 0 < prodn l.
Proof. induction 1; simpl; nia. Qed.

Lemma prodn_app a b : prodn (a ++ b) = prodn a * prodn b.
Proof. induction a; simpl; lia. Qed.

Lemma valid_length sizes c : valid_comb sizes c -> length c = length sizes.
Proof. induction 1; simpl; auto. Qed.

Lemma valid_pos sizes c : valid_comb sizes c -> Forall (lt 0) sizes.
Proof. induction 1; constructor; auto; lia. Qed.

Lemma valid_nth sizes c : valid_comb sizes c <->
  length c = length sizes /\ forall k x s, nth_error c k = Some x -> nth_error sizes k = Some s -> x < s.
Proof.
  split.
  - intros H. split. eapply valid_length; eauto.
    induction H; intros k a b Ha Hb.
    + destruct k; discriminate.
    + destruct k; simpl in *. congruence. eauto.
  - intros [HL H]. revert sizes HL H. induction c as [|x c IH]; destruct sizes as [|s ss]; simpl; intros HL H; try discriminate.
    + constructor.
    + constructor.
      * apply (H 0); reflexivity.
      * apply IH. lia. intros k. apply (H (S k)).
Qed.

Lemma idx_lt sizes c : valid_comb sizes c -> idx sizes c < prodn sizes.
Proof. induction 1; simpl. lia. nia. Qed.

Lemma idx_inj sizes c d : valid_comb sizes c -> valid_comb sizes d ->
  idx sizes c = idx sizes d -> c = d.
Proof.
  intros Hc. revert d. induction Hc as [|x s cs ss Hx Hc IH]; intros d Hd E.
  - inversion Hd. reflexivity.
  - inversion Hd as [|y s' ds ss' Hy Hd']; subst. simpl in E.
    pose proof (idx_lt _ _ Hc). pose proof (idx_lt _ _ Hd').
    assert (x = y) by nia. subst. f_equal. apply IH; auto. lia.
Qed.

Lemma idx_surj sizes n : n < prodn sizes -> exists c, valid_comb sizes c /\ idx sizes c = n.
Proof.
  revert n; induction sizes as [|s ss IH]; simpl; intros n Hn.
  - exists []. split. constructor. lia.
  - assert (P : prodn ss <> 0) by (intros E; rewrite E in Hn; lia).
    destruct (IH (n mod prodn ss)) as (c & Hc & E).
    { apply Nat.mod_upper_bound; auto. }
    exists (n / prodn ss :: c). split.
    + constructor; auto. apply Nat.div_lt_upper_bound; auto. lia.
    + simpl. rewrite E. pose proof (Nat.div_mod n (prodn ss) P). lia.
Qed.

Lemma idx_lex sizes c d : valid_comb sizes c -> valid_comb sizes d ->
  (lex_lt c d <-> idx sizes c < idx sizes d).
Proof.
  intros Hc. revert d. induction Hc as [|x s cs ss Hx Hc IH]; intros d Hd.
  - inversion Hd; subst. simpl. split; intros H. inversion H. lia.
  - inversion Hd as [|y s' ds ss' Hy Hd']; subst. simpl.
    pose proof (idx_lt _ _ Hc). pose proof (idx_lt _ _ Hd').
    split; intros H1.
    + inversion H1; subst. nia. apply IH in H3; auto. lia.
    + destruct (lt_eq_lt_dec x y) as [[L| ->]|L].
      * constructor; auto. apply valid_length in Hc. apply valid_length in Hd'. congruence.
      * apply lex_tail. apply IH; auto. lia.
      * exfalso. nia.
Qed.

Lemma all_combs_In sizes c : In c (all_combs sizes) <-> valid_comb sizes c.
Proof.
  revert c; induction sizes as [|s ss IH]; simpl; intros c.
  - split. intros [<-|[]]. constructor. intros H; inversion H; auto.
  - rewrite in_flat_map. split.
    + intros (i & Hi & H). apply in_map_iff in H as (d & <- & Hd).
      apply in_seq in Hi. constructor. lia. apply IH; auto.
    + intros H. inversion H as [|x s' cs ss' Hx Hc]; subst. exists x. split.
      apply in_seq; lia. apply in_map. apply IH; auto.
Qed.

Lemma map_idx_all_combs sizes : map (idx sizes) (all_combs sizes) = seq 0 (prodn sizes).
Proof.
  induction sizes as [|s ss IH]; simpl; auto.
  assert (G : forall n, map (idx (s :: ss)) (flat_map (fun i => map (cons i) (all_combs ss)) (seq 0 n))
            = seq 0 (n * prodn ss)).
  { induction n as [|n IHn]. reflexivity.
    rewrite seq_S, flat_map_app, map_app, IHn. simpl. rewrite app_nil_r, map_map. simpl.
    replace (prodn ss + n * prodn ss) with (n * prodn ss + prodn ss) by lia.
    rewrite seq_app. f_equal. simpl.
    rewrite <- (map_map (idx ss) (fun m => n * prodn ss + m)). rewrite IH.
    generalize (n * prodn ss) as b. intros b. clear.
    generalize (prodn ss) as m. intros m.
    assert (Q : forall m a, map (fun x => b + x) (seq a m) = seq (b + a) m).
    { induction m0; simpl; intros a; auto. f_equal. rewrite IHm0. f_equal. lia. }
    rewrite Q. f_equal. lia. }
  apply G.
Qed.

Lemma all_combs_length sizes : length (all_combs sizes) = prodn sizes.
Proof.
  rewrite <- (map_length (idx sizes)), map_idx_all_combs. apply seq_length.
Qed.

Lemma all_combs_NoDup sizes : NoDup (all_combs sizes).
Proof.
  apply (NoDup_map_inv (idx sizes)). rewrite map_idx_all_combs. apply seq_NoDup.
Qed.

Lemma nth_error_all_combs sizes c :
  valid_comb sizes c -> nth_error (all_combs sizes) (idx sizes c) = Some c.
Proof.
  intros H. pose proof (idx_lt _ _ H) as L.
  destruct (nth_error (all_combs sizes) (idx sizes c)) as [d|] eqn:E.
  - f_equal. assert (Hd : valid_comb sizes d) by (apply all_combs_In; eapply nth_error_In; eauto).
    symmetry. apply (idx_inj sizes); auto.
    apply (map_nth_error (idx sizes)) in E. rewrite map_idx_all_combs in E.
    rewrite (nth_error_nth' _ 0) in E by (rewrite seq_length; auto).
    rewrite seq_nth in E by auto. simpl in E. congruence.
  - apply nth_error_None in E. rewrite all_combs_length in E. lia.
Qed.

Lemma all_combs_sorted sizes : StronglySorted lex_lt (all_combs sizes).
Proof.
  assert (G : forall l a n, map (idx sizes) l = seq a n -> Forall (valid_comb sizes) l -> StronglySorted lex_lt l).
  { induction l as [|c l IH]; intros a n E Hv; constructor.
    - destruct n; simpl in E. discriminate. injection E as E1 E2.
      inversion Hv; subst. eapply IH; eauto.
    - destruct n; simpl in E. discriminate. injection E as E1 E2. inversion Hv; subst.
      apply Forall_forall. intros d Hd. apply (idx_lex sizes); auto.
      { rewrite Forall_forall in H2. auto. }
      assert (In (idx sizes d) (seq (S (idx sizes c)) n)) by (rewrite <- E2; apply in_map; auto).
      apply in_seq in H. lia. }
  apply (G _ 0 (prodn sizes)). apply map_idx_all_combs.
  apply Forall_forall. intros c. apply all_combs_In.
Qed.

(** {2 the odometer} *)
Lemma idx_lset sizes comb k c v :
  length comb = length sizes -> nth_error comb k = Some c ->
  idx sizes (lset comb k v) + c * prodn (skipn (S k) sizes)
  = idx sizes comb + v * prodn (skipn (S k) sizes).
Proof.
  revert sizes k; induction comb as [|x comb IH]; intros sizes k HL Hc.
  - destruct k; discriminate.
  - destruct sizes as [|s ss]; [discriminate|]. simpl in HL. destruct k as [|k].
    + simpl in Hc. injection Hc as ->. simpl. lia.
    + simpl in Hc. specialize (IH ss k ltac:(lia) Hc). simpl lset. simpl idx.
      change (skipn (S (S k)) (s :: ss)) with (skipn (S k) ss). lia.
Qed.

Lemma valid_lset sizes comb k v s :
  valid_comb sizes comb -> nth_error sizes k = Some s -> v < s -> valid_comb sizes (lset comb k v).
Proof.
  intros H. revert k. induction H as [|x s' cs ss Hx Hc IH]; intros k Hk Hv.
  - destruct k; discriminate.
  - destruct k as [|k]; simpl in *.
    + injection Hk as ->. constructor; auto.
    + constructor; auto. apply IH; auto.
Qed.

Lemma prodn_skipn sizes k s :
  nth_error sizes k = Some s -> prodn (skipn k sizes) = s * prodn (skipn (S k) sizes).
Proof.
  revert k; induction sizes as [|x ss IH]; intros [|k] H; try discriminate.
  - injection H as ->. reflexivity.
  - simpl in H. apply IH in H. exact H.
Qed.

Lemma idx_zeros sizes comb : Forall (eq 0) comb -> idx sizes comb = 0.
Proof.
  intros H. revert sizes. induction H as [|x comb Hx H IH]; destruct sizes; simpl; auto.
  subst. rewrite IH. lia.
Qed.

Lemma incr_loop_spec sizes k : forall comb,
  valid_comb sizes comb -> k < length sizes ->
  (forall j, k < j -> j < length sizes -> nth_error comb j = Some 0) ->
  match incr_loop sizes comb k with
  | Ok None => idx sizes comb + prodn (skipn (S k) sizes) = prodn sizes
  | Ok (Some comb') => valid_comb sizes comb' /\ idx sizes comb' = idx sizes comb + prodn (skipn (S k) sizes)
  | _ => False
  end.
Proof.
  induction k as [|k IH]; intros comb Hv Hk Hz; pose proof (valid_length _ _ Hv) as HL.
  - destruct comb as [|c cs]; destruct sizes as [|s ss]; simpl in HL, Hk; try lia.
    simpl. inversion Hv as [|? ? ? ? Hc Hcs]; subst.
    destruct s as [|s]; [lia|]. destruct (c =? s) eqn:E.
    + apply Nat.eqb_eq in E. subst.
      rewrite (idx_zeros ss cs).
      2:{ apply Forall_forall. intros x Hx. apply In_nth_error in Hx as (j & Hj).
          assert (j < length cs) by (apply nth_error_Some; congruence).
          specialize (Hz (S j) ltac:(lia)). simpl in Hz. rewrite Hz in Hj by lia. congruence. }
      lia.
    + apply Nat.eqb_neq in E. split. constructor; auto. lia. simpl. lia.
  - assert (exists c, nth_error comb (S k) = Some c) as (c & Hc).
    { destruct (nth_error comb (S k)) eqn:E; eauto. apply nth_error_None in E. lia. }
    assert (exists s, nth_error sizes (S k) = Some s) as (s & Hs).
    { destruct (nth_error sizes (S k)) eqn:E; eauto. apply nth_error_None in E. lia. }
    assert (Lc : c < s) by (apply valid_nth in Hv as [_ Hv]; eauto).
    cbn [incr_loop]. unfold vget. rewrite Hc, Hs. cbn [rbind].
    destruct (S c =? s) eqn:E.
    + apply Nat.eqb_eq in E. rewrite vset_ok by lia. cbn [rbind].
      specialize (IH (lset comb (S k) 0)).
      pose proof (idx_lset sizes comb (S k) c 0 HL Hc) as HI.
      pose proof (prodn_skipn sizes (S k) s Hs) as HP.
      destruct (incr_loop sizes (lset comb (S k) 0) k) as [[comb'|]| | | |].
      * destruct IH as [V I]; try lia.
        -- eapply valid_lset; eauto. lia.
        -- intros j Hj HjL. destruct (Nat.eq_dec j (S k)).
           ++ subst. apply nth_error_lset_eq. lia.
           ++ rewrite nth_error_lset_ne by lia. apply Hz; lia.
        -- split; auto. rewrite I. nia.
      * assert (idx sizes (lset comb (S k) 0) + prodn (skipn (S k) sizes) = prodn sizes); [|nia].
        apply IH; try lia.
        -- eapply valid_lset; eauto. lia.
        -- intros j Hj HjL. destruct (Nat.eq_dec j (S k)).
           ++ subst. apply nth_error_lset_eq. lia.
           ++ rewrite nth_error_lset_ne by lia. apply Hz; lia.
      * apply IH; try lia. eapply valid_lset; eauto. lia.
           intros j Hj HjL. destruct (Nat.eq_dec j (S k)).
           ++ subst. apply nth_error_lset_eq. lia.
           ++ rewrite nth_error_lset_ne by lia. apply Hz; lia.
      * apply IH; try lia. eapply valid_lset; eauto. lia.
           intros j Hj HjL. destruct (Nat.eq_dec j (S k)).
           ++ subst. apply nth_error_lset_eq. lia.
           ++ rewrite nth_error_lset_ne by lia. apply Hz; lia.
      * apply IH; try lia. eapply valid_lset; eauto. lia.
           intros j Hj HjL. destruct (Nat.eq_dec j (S k)).
           ++ subst. apply nth_error_lset_eq. lia.
           ++ rewrite nth_error_lset_ne by lia. apply Hz; lia.
      * apply IH; try lia. eapply valid_lset; eauto. lia.
           intros j Hj HjL. destruct (Nat.eq_dec j (S k)).
           ++ subst. apply nth_error_lset_eq. lia.
           ++ rewrite nth_error_lset_ne by lia. apply Hz; lia.
    + apply Nat.eqb_neq in E. rewrite vset_ok by lia. cbn [rbind]. split.
      * eapply valid_lset; eauto. lia.
      * pose proof (idx_lset sizes comb (S k) c (S c) HL Hc). lia.
Qed.

(** one step of the range, on valid combinations *)
Lemma range_incr_spec sizes comb e :
  sizes <> [] -> valid_comb sizes comb ->
  match range_incr (Some (mkRData sizes comb e)) with
  | Ok None => S (idx sizes comb) = prodn sizes
  | Ok (Some d) => r_sizes d = sizes /\ r_eor d = e /\ valid_comb sizes (r_comb d)
                   /\ idx sizes (r_comb d) = S (idx sizes comb)
  | _ => False
  end.
Proof.
  intros Hne Hv. pose proof (valid_length _ _ Hv) as HL. simpl.
  destruct (length comb) as [|k] eqn:EL.
  { destruct sizes; simpl in *; congruence. }
  pose proof (incr_loop_spec sizes k comb Hv ltac:(lia)) as H.
  assert (Z : forall j, k < j -> j < length sizes -> nth_error comb j = Some 0) by (intros; lia).
  specialize (H Z). assert (Hs : skipn (S k) sizes = []) by (apply skipn_all2; lia).
  rewrite Hs in H. simpl in H.
  destruct (incr_loop sizes comb k) as [[comb'|]| | | |]; simpl; auto; try lia.
  destruct H. repeat split; auto. lia.
Qed.

Lemma valid_zeros sizes : Forall (lt 0) sizes -> valid_comb sizes (map (fun _ => 0) sizes).
Proof. induction 1; simpl; constructor; auto. Qed.

Lemma range_run_from sizes : sizes <> [] -> forall fuel comb e,
  valid_comb sizes comb -> prodn sizes - idx sizes comb <= fuel ->
  range_run fuel (Some (mkRData sizes comb e)) = Ok (skipn (idx sizes comb) (all_combs sizes)).
Proof.
  intros Hne. induction fuel as [|fuel IH]; intros comb e Hv Hf;
    pose proof (idx_lt _ _ Hv) as HI; [lia|].
  assert (SK : skipn (idx sizes comb) (all_combs sizes)
               = comb :: skipn (S (idx sizes comb)) (all_combs sizes)).
  { pose proof (nth_error_all_combs sizes comb Hv) as HN.
    revert HN. generalize (idx sizes comb) as n. generalize (all_combs sizes) as l.
    clear. induction l as [|x l IHl]; intros [|n] H; try discriminate.
    - injection H as ->. reflexivity.
    - simpl in *. apply IHl; auto. }
  cbn [range_run range_eqb range_end range_get r_comb rbind].
  pose proof (range_incr_spec sizes comb e Hne Hv) as HR.
  destruct (range_incr (Some (mkRData sizes comb e))) as [[d|]| | | |]; try contradiction.
  - destruct d as [sz cb e']. simpl in HR. destruct HR as (-> & -> & HV & HX).
    cbn [rbind]. rewrite IH by (auto; lia). simpl. rewrite SK, HX. reflexivity.
  - rewrite SK. assert (E : skipn (S (idx sizes comb)) (all_combs sizes) = []).
    { apply skipn_all2. rewrite all_combs_length. lia. }
    rewrite E. cbn [rbind]. destruct fuel; reflexivity.
Qed.

Lemma idx_zero_comb sizes : idx sizes (map (fun _ => 0) sizes) = 0.
Proof. apply idx_zeros. apply Forall_forall. intros x Hx. apply in_map_iff in Hx as (? & <- & _). reflexivity. Qed.

Lemma range_run_ok sizes fuel :
  sizes <> [] -> Forall (lt 0) sizes -> prodn sizes <= fuel ->
  range_run fuel (range_ctor sizes) = Ok (all_combs sizes).
Proof.
  intros Hne Hp Hf. unfold range_ctor.
  rewrite range_run_from; auto.
  - rewrite idx_zero_comb. reflexivity.
  - apply valid_zeros; auto.
  - lia.
Qed.

Lemma range_all_ok sizes :
  sizes <> [] -> Forall (lt 0) sizes -> range_all sizes = Ok (all_combs sizes).
Proof. intros. apply range_run_ok; auto. rewrite sizes_prod_prodn. lia. Qed.

(** {2 combinations by function} *)
Lemma list_eqb_eq a b : list_eqb a b = true <-> a = b.
Proof.
  revert b; induction a as [|x a IH]; destruct b as [|y b]; simpl; split; intros H; try discriminate; auto.
  - apply andb_true_iff in H as [H1 H2]. apply Nat.eqb_eq in H1. apply IH in H2. congruence.
  - injection H as -> ->. rewrite Nat.eqb_refl. simpl. apply IH. reflexivity.
Qed.
