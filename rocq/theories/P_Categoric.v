(** Properties C01, C02, C12, C13, C14: joint domains and groups of variables.

    Specification vocabulary (Combs.v, GroupProofs.v):
    - [valid_comb sizes c]: same length and every entry smaller than its size;
    - [lex_lt]: lexicographic order;
    - [vkey v]: name and size of a variable, what the containers compare;
    - [made v]: [v] was returned by the constructor of Variable;
    - [built_group g]: [g] was obtained by the constructors, [add] and
      [replaceVariables] of Group. *)
From Coq Require Import String List Arith Bool Lia Permutation Sorted.
From Verif Require Import Res Categoric Combs Func FuncProofs GroupProofs FactorProofs FactorApi.
Import ListNotations.
Open Scope nat_scope.

(** sample variables used to show that hypotheses can be met *)
Definition exA := mkVar 1 "A" 2.
Definition exB := mkVar 2 "B" 3.
Definition exC := mkVar 3 "C" 2.
Example exA_made : made exA. Proof. exists 1, 2, "A"%string. reflexivity. Qed.
Example exB_made : made exB. Proof. exists 2, 3, "B"%string. reflexivity. Qed.
Example exC_made : made exC. Proof. exists 3, 2, "C"%string. reflexivity. Qed.
Definition exG := mkGroup [exA; exB; exC] [exA; exB; exC].
Example exG_built : built_group exG.
Proof.
  apply (bg_ctor [exA; exB; exC]).
  - repeat constructor; eauto using exA_made, exB_made, exC_made.
  - reflexivity.
Qed.

(** C01. Whatever the (sufficient) number of iterations allowed, ranging
    terminates and visits exactly the joint domain, once, in order. *)
Theorem C01_enumeration : forall sizes fuel,
  sizes <> [] -> Forall (lt 0) sizes -> fold_right Nat.mul 1 sizes <= fuel ->
  exists cs,
    range_run fuel (range_ctor sizes) = Ok cs /\
    NoDup cs /\
    (forall c, In c cs <-> valid_comb sizes c) /\
    StronglySorted lex_lt cs /\
    hd_error cs = Some (repeat 0 (List.length sizes)) /\
    List.length cs = fold_right Nat.mul 1 sizes.
Proof.
  intros sizes fuel Hne Hp Hf.
  assert (E : forall l, fold_right Nat.mul 1 l = prodn l) by (induction l; simpl; auto).
  rewrite E in *. exists (all_combs sizes). repeat split.
  - apply range_run_ok; auto.
  - apply all_combs_NoDup.
  - apply all_combs_In.
  - apply all_combs_In.
  - apply all_combs_sorted.
  - clear - Hp. induction Hp as [|s ss Hs Hp IH]; simpl; auto.
    destruct s as [|s]; [lia|]. simpl. destruct (all_combs ss); simpl in *; congruence.
  - apply all_combs_length.
Qed.
Print Assumptions C01_enumeration.

Theorem C01_end_not_incrementable : range_incr range_end = Throw.
Proof. reflexivity. Qed.
Print Assumptions C01_end_not_incrementable.

(** the end is reached exactly after the last combination *)
Theorem C01_increment : forall sizes c e,
  sizes <> [] -> valid_comb sizes c ->
  (exists c', range_incr (Some (mkRData sizes c e)) = Ok (Some (mkRData sizes c' e)) /\
     valid_comb sizes c' /\ lex_lt c c' /\
     forall d, valid_comb sizes d -> lex_lt c d -> d = c' \/ lex_lt c' d) \/
  (range_incr (Some (mkRData sizes c e)) = Ok range_end /\
     forall d, valid_comb sizes d -> ~ lex_lt c d).
Proof.
  intros sizes c e Hne V. pose proof (range_incr_spec sizes c e Hne V) as H.
  destruct (range_incr (Some (mkRData sizes c e))) as [[d|]| | | |]; try contradiction.
  - left. destruct d as [s' c' e']. simpl in H. destruct H as (-> & -> & V' & I).
    exists c'. split; auto. split; auto. split.
    + apply (idx_lex sizes); auto. lia.
    + intros d Vd L. apply (idx_lex sizes) in L; auto.
      destruct (Nat.eq_dec (idx sizes d) (idx sizes c')) as [E|E].
      * left. apply (idx_inj sizes); auto.
      * right. apply (idx_lex sizes); auto. lia.
  - right. split; auto. intros d Vd L. apply (idx_lex sizes) in L; auto.
    pose proof (idx_lt _ _ Vd). lia.
Qed.
Print Assumptions C01_increment.

Example C01_witness : exists cs, range_run 12 (range_ctor [2; 3; 2]) = Ok cs /\
  nth_error cs 7 = Some [1; 0; 1] /\ List.length cs = 12.
Proof. vm_compute. eexists. split; [reflexivity|]. split; reflexivity. Qed.

(** C02. *)
Theorem C02_index_bijection : forall g, built_group g ->
  let sizes := map vsize (g_soup g) in
  let index := hash (make_info g) in
  (forall c, valid_comb sizes c -> exists k, index c = Ok k /\ k < fold_right Nat.mul 1 sizes) /\
  (forall c d k, valid_comb sizes c -> valid_comb sizes d -> index c = Ok k -> index d = Ok k -> c = d) /\
  (forall k, k < fold_right Nat.mul 1 sizes -> exists c, valid_comb sizes c /\ index c = Ok k) /\
  (exists cs, range_all sizes = Ok cs /\
     forall k c, nth_error cs k = Some c -> index c = Ok k).
Proof.
  intros g Hg sizes index. destruct (built_group_inv g Hg) as (W & Hne & Hm).
  assert (E : forall l, fold_right Nat.mul 1 l = prodn l) by (induction l; simpl; auto).
  rewrite E. assert (HK : forall c, valid_comb sizes c -> index c = Ok (idx sizes c)) by (intros; apply hash_ok; auto).
  split; [|split; [|split]].
  - intros c V. exists (idx sizes c). split; auto. apply idx_lt; auto.
  - intros c d k Vc Vd H1 H2. rewrite HK in H1, H2 by auto. apply (idx_inj sizes); auto. congruence.
  - intros k Hk. destruct (idx_surj sizes k Hk) as (c & V & I). exists c. split; auto. rewrite HK by auto. congruence.
  - exists (all_combs sizes). split.
    + apply range_all_ok. unfold sizes. destruct (g_soup g); simpl; congruence. apply made_sizes; auto.
    + intros k c H. assert (V : valid_comb sizes c) by (apply all_combs_In; eapply nth_error_In; eauto).
      rewrite HK by auto. f_equal. apply (map_nth_error (idx sizes)) in H. rewrite map_idx_all_combs in H.
      assert (L : k < List.length (seq 0 (prodn sizes))) by (apply nth_error_Some; congruence).
      rewrite seq_length in L.
      rewrite (nth_error_nth' _ 0) in H by (rewrite seq_length; auto). rewrite seq_nth in H by auto. simpl in H. congruence.
Qed.
Print Assumptions C02_index_bijection.
Example C02_witness : hash (make_info exG) [1; 2; 0] = Ok 10. Proof. reflexivity. Qed.

(** C12. Construction succeeds exactly for the non empty lists without two
    variables with same name and size, and keeps the order. *)
Theorem C12_group_construction : forall soup,
  (forall g, group_ctor soup = Ok g ->
     soup <> [] /\ NoDup (map vkey soup) /\ g_soup g = soup) /\
  (soup <> [] -> NoDup (map vkey soup) -> exists g, group_ctor soup = Ok g) /\
  (soup = [] \/ ~ NoDup (map vkey soup) -> group_ctor soup = Throw).
Proof.
  intros soup. split; [|split].
  - intros g H. apply group_ctor_ok in H as (A & B & ->). auto.
  - intros A B. exists (mkGroup soup soup). apply group_ctor_ok. auto.
  - intros H. destruct (group_ctor_total soup) as [(g & Hg)|E]; auto. exfalso.
    apply group_ctor_ok in Hg as (A & B & _). tauto.
Qed.
Print Assumptions C12_group_construction.

Theorem C12_group_add : forall g v, built_group g ->
  (In (vkey v) (map vkey (g_soup g)) -> group_add g v = Throw) /\
  (~ In (vkey v) (map vkey (g_soup g)) ->
     exists g', group_add g v = Ok g' /\ g_soup g' = g_soup g ++ [v]).
Proof.
  intros g v Hg. destruct (built_group_inv g Hg) as (W & _ & _).
  destruct (group_add_spec g v W) as [A B]. split; auto. intros H. eexists. split. apply B; auto. reflexivity.
Qed.
Print Assumptions C12_group_add.

(** the same holds for the variadic constructor *)
Theorem C12_group_variadic : forall a b rest,
  (NoDup (map vkey (a :: b :: rest)) ->
     exists g, group_variadic a b rest = Ok g /\ g_soup g = a :: b :: rest) /\
  (~ NoDup (map vkey (a :: b :: rest)) -> group_variadic a b rest = Throw).
Proof.
  intros a b rest. unfold group_variadic. generalize (a :: b :: rest). clear. intros l.
  assert (G : forall l g, wf_group g ->
    (NoDup (map vkey (g_soup g ++ l)) -> exists g', rfold group_add l g = Ok g' /\ g_soup g' = g_soup g ++ l) /\
    (~ NoDup (map vkey (g_soup g ++ l)) -> rfold group_add l g = Throw)).
  { clear. induction l as [|v l IH]; intros g W; simpl.
    - rewrite app_nil_r. split. eauto. intros H. exfalso. apply H. apply W.
    - destruct (group_add_spec g v W) as [A B].
      destruct (in_dec vkey_eq_dec (vkey v) (map vkey (g_soup g))) as [E|E].
      + rewrite A by auto. cbn [rbind]. split; auto. intros ND. exfalso.
        rewrite map_app in ND. simpl in ND. apply NoDup_remove_2 in ND. apply ND. apply in_or_app; auto.
      + pose proof (B E) as Hadd. rewrite Hadd. cbn [rbind].
        pose proof (group_add_wf _ _ _ W Hadd) as W1. destruct (IH _ W1) as [P Q]. simpl in P, Q.
        rewrite <- app_assoc in P, Q. simpl in P, Q. auto. }
  apply (G l _ empty_group_wf).
Qed.
Print Assumptions C12_group_variadic.

(** no reachable group holds the same variable twice *)
Theorem C12_group_invariant : forall g, built_group g ->
  NoDup (map vkey (g_soup g)) /\ Permutation (g_set g) (g_soup g) /\ g_soup g <> [].
Proof. intros g Hg. destruct (built_group_inv g Hg) as ((A & B) & C & _). auto. Qed.
Print Assumptions C12_group_invariant.
Example C12_witness : built_group exG /\ group_add exG exB = Throw /\
  exists g, group_add exG (mkVar 4 "D" 5) = Ok g.
Proof. split. apply exG_built. split. reflexivity. eexists. reflexivity. Qed.

(** The documentation (Group.h:23-24, 66-68) claims unique names. This is false:
    two variables with the same name and different sizes are accepted. *)
Theorem C12_unique_names_refuted : exists g a b,
  built_group g /\ In a (g_soup g) /\ In b (g_soup g) /\ a <> b /\ vname a = vname b.
Proof.
  exists (mkGroup [exA; mkVar 9 "A" 3] [exA; mkVar 9 "A" 3]), exA, (mkVar 9 "A" 3).
  split.
  - apply (bg_ctor [exA; mkVar 9 "A" 3]). repeat constructor. apply exA_made.
    exists 9, 3, "A"%string. reflexivity. reflexivity.
  - simpl. repeat split; auto. discriminate.
Qed.
Print Assumptions C12_unique_names_refuted.

(** C13. [replaceVariables] succeeds exactly when the new variables are distinct
    and have the sizes of the old ones, in the same positions. *)
Theorem C13_replace_success : forall g new,
  (forall g', group_replace g new = Ok g' ->
     NoDup (map vkey new) /\ map vsize new = map vsize (g_soup g) /\ g_soup g' = new) /\
  (NoDup (map vkey new) -> map vsize new = map vsize (g_soup g) ->
     exists g', group_replace g new = Ok g' /\ g_soup g' = new).
Proof.
  intros g new. split.
  - intros g' H. apply group_replace_ok in H as (A & B & ->). auto.
  - intros A B. exists (mkGroup new new). split; auto. apply group_replace_ok. auto.
Qed.
Print Assumptions C13_replace_success.

(** it throws in all the other cases, if the list is not longer than the group
    or has no repetition *)
Theorem C13_replace_safe_partial : forall g new,
  List.length new <= List.length (g_soup g) \/ NoDup (map vkey new) ->
  group_replace g new = Throw \/ exists g', group_replace g new = Ok g'.
Proof. intros g new [H|H]. apply group_replace_safe; auto. apply group_replace_safe_nodup; auto. Qed.
Print Assumptions C13_replace_safe_partial.
Example C13_witness : group_replace exG [mkVar 5 "X" 2; mkVar 6 "Y" 3; mkVar 7 "Z" 2] =
  Ok (mkGroup [mkVar 5 "X" 2; mkVar 6 "Y" 3; mkVar 7 "Z" 2] [mkVar 5 "X" 2; mkVar 6 "Y" 3; mkVar 7 "Z" 2])
  /\ group_replace exG [mkVar 5 "X" 2; mkVar 6 "Y" 4; mkVar 7 "Z" 2] = Throw.
Proof. split; reflexivity. Qed.

(** For a longer list with repetitions the code reads past the end of the old
    variables: missing is a check of the length of the list. *)
Theorem C13_replace_no_ub_refuted : exists g new,
  built_group g /\ Forall made new /\ group_replace g new = UB.
Proof.
  exists exG, [exA; exB; exC; exA]. split. apply exG_built. split.
  - repeat constructor; eauto using exA_made, exB_made, exC_made.
  - reflexivity.
Qed.
Print Assumptions C13_replace_no_ub_refuted.

(** C14. *)
Theorem C14_set_difference : forall entire subset v,
  In v (get_complementary entire subset) <->
  In v entire /\ ~ (exists w, In w subset /\ vname w = vname v /\ vsize w = vsize v).
Proof.
  intros entire subset v. unfold get_complementary. rewrite vset_minus_In. split; intros [A B]; split; auto.
  - intros (w & Hw & E1 & E2). apply B. replace (vkey v) with (vkey w). apply in_map; auto.
    unfold vkey; congruence.
  - intros H. apply in_map_iff in H as (w & E & Hw). apply B. exists w. unfold vkey in E. injection E as E1 E2. auto.
Qed.
Print Assumptions C14_set_difference.

Theorem C14_no_repetition : forall entire subset,
  NoDup (map vkey entire) -> NoDup (map vkey (get_complementary entire subset)).
Proof. intros. apply vset_minus_NoDup; auto. Qed.
Print Assumptions C14_no_repetition.
Example C14_witness : get_complementary [exA; exB; exC] [exB; mkVar 8 "D" 2] = [exA; exC].
Proof. reflexivity. Qed.
