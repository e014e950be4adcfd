(** What the import of a document loads: lemmas *)
From Coq Require Import Ascii String List Arith ZArith Bool Lia Permutation.
From Verif Require Import Res Num Categoric Combs Func FuncProofs GroupProofs FactorProofs FactorApi Graph GraphLemmas GraphInv GraphSpec BeliefSpec Hist
  Belief SafeSpec Train TrainHist Coherent FieldHist FieldHalt FieldSafeSpec FieldSafe BPRun IO Json Xml Halt ImportSpec CompleteSpec Import.
Import ListNotations.
Open Scope nat_scope.

Lemma f2_impl {A B} (P Q : A -> B -> Prop) l m : (forall a b, P a b -> Q a b) -> Forall2 P l m -> Forall2 Q l m.
Proof. intros I F. induction F; constructor; auto. Qed.
Lemma f2_in_impl {A B} (P Q : A -> B -> Prop) l m : (forall a b, In a l -> In b m -> P a b -> Q a b) -> Forall2 P l m -> Forall2 Q l m.
Proof. intros I F. induction F; constructor. apply I; simpl; auto. apply IHF. intros a b J K. apply I; simpl; auto. Qed.
Lemma f2_trans {A B C} (P : A -> B -> Prop) (Q : B -> C -> Prop) (R : A -> C -> Prop) l m n : (forall a b c, P a b -> Q b c -> R a c) -> Forall2 P l m -> Forall2 Q m n -> Forall2 R l n.
Proof. intros I F. revert n. induction F; intros n G; inversion G; subst; constructor; eauto. Qed.
Lemma f2_map {A B C} (P : B -> C -> Prop) (f : A -> B) l m : Forall2 (fun a c => P (f a) c) l m <-> Forall2 P (map f l) m.
Proof. split; revert m; induction l; intros m F; inversion F; subst; constructor; auto. Qed.
Lemma f2_choose {A B} (P : A -> B -> Prop) l : (forall a, In a l -> exists b, P a b) -> exists m, Forall2 P l m.
Proof.
  induction l as [|a l IH]; intros X. exists []; constructor. destruct (X a (or_introl eq_refl)) as [b Pb]. destruct IH as [m F]. intros x J. apply X; simpl; auto. exists (b :: m). constructor; auto.
Qed.
Lemma nodup_snoc {A} (l : list A) x : NoDup l -> ~ In x l -> NoDup (l ++ [x]).
Proof. intros D J. apply (Permutation_NoDup (l := x :: l)). apply Permutation_cons_append. constructor; auto. Qed.
Lemma find_pos_same {A} (p q : A -> bool) l : (forall x, p x = q x) -> find_pos p l = find_pos q l.
Proof. intros E. induction l as [|x l IH]; cbn [find_pos]; auto. rewrite E, IH. auto. Qed.

Section Loading.
  Context {N : num}.
  Notation rst := (rst (N:=N)).
  Notation func := (func N).
  Implicit Types s t u : rst.

  (** {1 The insertions} *)
  Lemma const_ret s f u : add_const (Some f) s = Ret tt u ->
    g_all (r_g u) = g_all (r_g s) ++ [f] /\ r_const u = r_const s ++ [f] /\ r_tun u = r_tun s /\ r_h u = r_h s /\ r_top u = r_top s /\ r_tuners u = r_tuners s.
  Proof.
    unfold add_const, on_g. pose proof (add_fields (r_h s) (r_g s) (Some f)) as Q. destruct (add_distribution (r_h s) (r_g s) (Some f)) as [[] g|g| | |]; cbn [obind]; intros E; try discriminate E.
    injection E as <-. destruct Q as (f' & [= <-] & _ & Q & _). cbn [set_const set_g r_g r_const r_tun r_h r_top r_tuners]. auto 10.
  Qed.
  Definition shares s (f : nat) (group : list var) : Prop :=
    exists c f0, In c (tunable_clusters s) /\ In f c /\ In f0 c /\ f0 <> f /\ vset_eqb (g_set (f_group (r_h s f0))) group = true.
  (** the same function, the weight apart *)
  Definition same_fun (a b : func) : Prop := f_group a = f_group b /\ f_info a = f_info b /\ f_data a = f_data b /\ (f_exp a = None <-> f_exp b = None).
  Lemma same_fun_refl a : same_fun a a.
  Proof. repeat split; auto. Qed.
  Lemma same_fun_trans a b c : same_fun a b -> same_fun b c -> same_fun a c.
  Proof. intros (A1 & A2 & A3 & A4) (B1 & B2 & B3 & B4). split; [|split; [|split]]; try congruence. tauto. Qed.
  Lemma tun_ret s f sh u : rinv s -> expo s f -> add_tunable (Some f) sh s = Ret tt u ->
    g_all (r_g u) = g_all (r_g s) ++ [f] /\ r_const u = r_const s /\ r_tun u = r_tun s ++ [f] /\ r_top u = r_top s /\
    (forall k, k <> f -> r_h u k = r_h s k) /\ same_fun (r_h u f) (r_h s f) /\
    match sh with None => r_h u = r_h s /\ tunable_clusters u = tunable_clusters s ++ [[f]] | Some group => shares u f group end.
  Proof.
    intros I X. unfold add_tunable, on_g. pose proof (on_g_add s (Some f) I) as Q'. unfold on_g in Q'. pose proof (add_fields (r_h s) (r_g s) (Some f)) as Q.
    destruct (add_distribution (r_h s) (r_g s) (Some f)) as [[] g|g| | |]; cbn [obind]; try (intros E; discriminate E).
    destruct Q as (f' & [= <-] & NI & Q & _). destruct Q' as [[I1 R1] _]. { intros k [= <-]. apply X. }
    set (s1 := set_g s g) in *. assert (X1 : expo s1 f) by (eapply expo_le; eauto).
    destruct (make_tuner s1 f) as [t| | | |] eqn:ET; cbn [lift obind]; try (intros E; discriminate E).
    pose proof (make_tuner_fac _ _ _ ET) as Ef. set (s2 := set_tun s1 (r_tun s1 ++ [f])).
    destruct sh as [group|].
    2:{ intros E. injection E as <-. cbn [r_g r_const r_tun r_top r_h set_tuners set_tun s2 s1 set_g]. repeat split; auto; try tauto.
        unfold tunable_clusters. cbn [r_tuners set_tuners set_tun s2 s1 set_g]. rewrite map_app. cbn [map bases]. rewrite Ef. auto. }
    destruct (find_tuner s2 group) as [i| | | |] eqn:EF; cbn [lift obind]; try (intros E; discriminate E).
    destruct (vget (r_tuners s2) i) as [old| | | |] eqn:EO; cbn [lift obind]; try (intros E; discriminate E).
    assert (EN : nth_error (r_tuners s1) i = Some old). { unfold vget in EO. cbn [s2 set_tun r_tuners] in EO. destruct (nth_error (r_tuners s1) i); inversion EO; auto. }
    assert (Jold : In old (r_tuners s1)) by (eapply nth_error_In; eauto).
    assert (Cold : In (map bt_fac (bases old)) (tunable_clusters s1)) by (apply in_map_iff; eauto).
    assert (LI : i < length (r_tuners s1)) by (apply nth_error_Some; congruence).
    set (new := TComp (bases old ++ [t])). set (s3 := set_tuners s2 (lset (r_tuners s2) i new)).
    destruct (tuner_weight (r_h s3) new) as [w| | | |] eqn:TW; cbn [lift obind]; try (intros E; discriminate E).
    destruct (bases old) as [|b0 bs] eqn:EB. { exfalso. apply (ri_ne _ I1 _ Cold). auto. }
    assert (WC : forall k, In k (map bt_fac (b0 :: bs)) -> f_exp (r_h s1 k) = Some w).
    { intros k J. unfold new in TW. cbn [app tuner_weight] in TW. unfold exp_get_weight in TW. change (r_h s3) with (r_h s1) in TW.
      destruct (f_exp (r_h s1 (bt_fac b0))) as [w0|] eqn:E0; inversion TW; subst w0. rewrite <- E0. apply (ri_eq _ I1 _ k (bt_fac b0) Cold); auto. left; auto. }
    destruct (tuner_set_weight_ok w new s3) as (h' & E & W1 & W2).
    { intros b Jb. unfold new in Jb. cbn [bases] in Jb. change (r_h s3) with (r_h s1). apply in_app_or in Jb as [Jb|[<-|[]]].
      - rewrite WC by (apply in_map; auto). discriminate.
      - rewrite Ef. apply X1. }
    rewrite E. change (r_h s3) with (r_h s1) in W1, W2. unfold new in W1, W2. cbn [bases] in W1, W2. rewrite map_app in W1, W2. cbn [map] in W1, W2. rewrite Ef in W1, W2.
    assert (HE : forall k, k <> f -> h' k = r_h s1 k).
    { intros k NE. destruct (in_dec Nat.eq_dec k (map bt_fac (b0 :: bs))) as [J|J].
      - rewrite W1 by (apply in_or_app; auto). rewrite <- (WC k J). destruct (r_h s1 k); reflexivity.
      - apply W2. intros J'. apply in_app_or in J' as [J'|[<-|[]]]; auto. }
    assert (HF : h' f = mkFunc (f_group (r_h s1 f)) (f_info (r_h s1 f)) (f_data (r_h s1 f)) (Some w)) by (apply W1; apply in_or_app; right; left; auto).
    intros E'. injection E' as <-. cbn [r_g r_const r_tun r_top r_h set_tuners set_tun s2 s3 s1 set_g set_h]. split; auto. split; auto. split; auto. split; auto. split; [exact HE|]. split.
    { rewrite HF. unfold same_fun. cbn [f_group f_info f_data f_exp]. repeat split; auto. discriminate. intros Y. exfalso. apply (proj2 X1). exact Y. }
    unfold find_tuner in EF. destruct (find_pos (tunes (r_h s2) group) (r_tuners s2)) as [i'|] eqn:FP; [|discriminate]. injection EF as ->.
    apply find_pos_some in FP as (old' & E1 & T & _). change (r_tuners s2) with (r_tuners s1) in E1. assert (old' = old) by congruence. subst old'.
    unfold tunes in T. apply existsb_exists in T as (b & Jb & Tb). rewrite EB in Jb. change (r_h s2) with (r_h s1) in Tb.
    assert (NF : bt_fac b <> f).
    { intros EE. apply NI. change (In f (g_all (r_g s))). rewrite <- EE. apply (ri_in _ I). apply in_or_app. right. apply (ri_tun _ I). apply in_concat. exists (map bt_fac (b0 :: bs)). split; [exact Cold|]. apply in_map. auto. }
    exists (map bt_fac (bases new)), (bt_fac b). split; [|split; [|split; [|split]]]; auto.
    - unfold tunable_clusters. cbn [r_tuners set_h s3 set_tuners]. apply (in_map (fun b => map bt_fac (bases b))). apply nth_error_In with i. rewrite lset_nth by auto. rewrite Nat.eqb_refl. auto.
    - unfold new. cbn [bases]. rewrite map_app. apply in_or_app. right. left. auto.
    - unfold new. cbn [bases]. apply in_map. apply in_or_app. auto.
    - cbn [r_h set_h]. rewrite HE by auto. exact Tb.
  Qed.

  (** clusters only grow *)
  Definition cl_ext s u : Prop := forall k c, nth_error (tunable_clusters s) k = Some c -> exists l, nth_error (tunable_clusters u) k = Some (c ++ l).
  Lemma cl_refl s u : r_tuners u = r_tuners s -> cl_ext s u.
  Proof. intros E k c Q. exists []. rewrite app_nil_r. unfold tunable_clusters in *. rewrite E. exact Q. Qed.
  Lemma cl_trans s t u : cl_ext s t -> cl_ext t u -> cl_ext s u.
  Proof. intros A C k c Q. destruct (A k c Q) as [l Q1]. destruct (C k _ Q1) as [m Q2]. exists (l ++ m). rewrite app_assoc. auto. Qed.
  Lemma cl_in s u c : cl_ext s u -> In c (tunable_clusters s) -> exists l, In (c ++ l) (tunable_clusters u).
  Proof. intros A J. apply In_nth_error in J as [k E]. destruct (A k c E) as [l Q]. exists l. eapply nth_error_In; eauto. Qed.
  Lemma tun_cl s f sh u : rinv s -> expo s f -> add_tunable (Some f) sh s = Ret tt u -> cl_ext s u.
  Proof.
    intros I X E. pose proof (add_tunable_gro 0 (fun _ => True) (fun _ => True) s f sh I X (Nat.le_0_l _) (fun _ _ => Logic.I)) as G. rewrite E in G. exact (go_clusters _ _ _ _ _ G).
  Qed.
  Lemma shares_ext s u f group : cl_ext s u -> (forall k, same_fun (r_h u k) (r_h s k)) -> shares s f group -> shares u f group.
  Proof.
    intros A F (c & f0 & J1 & J2 & J3 & J4 & J5). destruct (cl_in s u c A J1) as [l J]. exists (c ++ l), f0. split; auto. split. apply in_or_app; auto. split. apply in_or_app; auto. split; auto.
    destruct (F f0) as [-> _]. exact J5.
  Qed.

  (** {1 The potentials} *)
  (** where an object of the document is, before the shared ones are inserted *)
  Definition put (tun : bool) u (new : list (nat * list var)) (p : func * iway) (k : nat) : Prop :=
    r_h u k = fst p /\
    match snd p with
    | IShare g => if tun then In (k, g) new else In k (r_const u)
    | ITun => if tun then In k (r_tun u) /\ exists c, In (k :: c) (tunable_clusters u) else In k (r_const u)
    | IConst => In k (r_const u)
    end.
  Lemma put_ext tun u v new new' p k : (forall x, In x new -> In x new') -> r_h v k = r_h u k -> incl (r_const u) (r_const v) -> incl (r_tun u) (r_tun v) -> cl_ext u v ->
    put tun u new p k -> put tun v new' p k.
  Proof.
    intros A1 A2 A3 A4 A5 (B1 & B2). split. congruence. destruct (snd p) as [| |g]; auto.
    - destruct tun; auto. destruct B2 as [B2 (c & B3)]. split; auto. destruct (cl_in _ _ _ A5 B3) as [l B4]. exists (c ++ l). exact B4.
    - destruct tun; auto.
  Qed.
  Lemma run_one_ret vars tun r cum s c u : rinv s -> rd True (entry vars) r -> run_one tun r cum s = Ret c u ->
    exists p new, r = Ok p /\ entry vars p /\ c = cum ++ new /\ rinv u /\ rle s u /\ r_top u = S (r_top s) /\ (forall k, k < r_top s -> r_h u k = r_h s k) /\
      Permutation (g_all (r_g u) ++ map fst new) (g_all (r_g s) ++ [r_top s]) /\ put tun u new p (r_top s) /\
      incl (r_const s) (r_const u) /\ incl (r_tun s) (r_tun u) /\ cl_ext s u /\
      (forall x, In x new -> tun = true /\ fst x = r_top s /\ snd p = IShare (snd x) /\ expo u (r_top s)).
  Proof.
    intros I R. destruct r as [[f w]| | | |]; cbn [run_one lift obind]; try (intros E; discriminate E). cbn [rd] in R. pose proof R as (Bf & Vf & Xf). cbn [fst snd] in *. unfold alloc.
    pose proof (alloc_step s f I Bf) as [R1 L1]. unfold alloc in R1, L1. cbn [snd] in R1, L1.
    set (t1 := mkR (fupd (r_h s) (r_top s) f) (S (r_top s)) (r_g s) (r_const s) (r_tun s) (r_tuners s)) in *.
    assert (X1 : w <> IConst -> expo t1 (r_top s)). { intros NE. split. unfold object. cbn [r_top t1]. lia. cbn [r_h t1]. rewrite fupd_eq. apply Xf. auto. }
    assert (H1 : forall k, k < r_top s -> r_h t1 k = r_h s k). { intros k L. cbn [r_h t1]. rewrite fupd_ne by lia. auto. }
    assert (H2 : r_h t1 (r_top s) = f). { cbn [r_h t1]. rewrite fupd_eq. auto. }
    assert (AC : (if tun then w = IConst else True) -> (do (_, s) <- add_const (Some (r_top s)) t1 ;; Ret cum s) = Ret c u ->
      exists p new, Ok (f, w) = Ok p /\ entry vars p /\ c = cum ++ new /\ rinv u /\ rle s u /\ r_top u = S (r_top s) /\ (forall k, k < r_top s -> r_h u k = r_h s k) /\
      Permutation (g_all (r_g u) ++ map fst new) (g_all (r_g s) ++ [r_top s]) /\ put tun u new p (r_top s) /\
      incl (r_const s) (r_const u) /\ incl (r_tun s) (r_tun u) /\ cl_ext s u /\
      (forall x, In x new -> tun = true /\ fst x = r_top s /\ snd p = IShare (snd x) /\ expo u (r_top s))).
    { intros W E. pose proof (add_const_step t1 (Some (r_top s)) R1) as ST. destruct (add_const (Some (r_top s)) t1) as [[] v|v| | |] eqn:Q; cbn [obind] in E; try discriminate E. injection E as <- <-.
      apply const_ret in Q as (Q1 & Q2 & Q3 & Q4 & Q5 & Q6). cbn [ostep] in ST. destruct ST as [ST1 ST2]. { intros k [= <-]. unfold object. cbn [r_top t1]. lia. }
      exists (f, w), []. rewrite !app_nil_r. split; auto. split; auto. split; auto. split; auto. split. eapply rle_trans; eauto. split. rewrite Q5; auto. split. { intros k L. rewrite Q4. auto. }
      split. { cbn [map]. rewrite ?app_nil_r. rewrite Q1. auto. } split.
      { split. rewrite Q4. exact H2. assert (Jc : In (r_top s) (r_const v)) by (rewrite Q2; apply in_or_app; right; left; auto). cbn [snd]. destruct w; auto; destruct tun; auto; discriminate W. }
      split. { rewrite Q2. apply incl_appl, incl_refl. } split. { rewrite Q3. apply incl_refl. } split. { apply cl_refl. rewrite Q6. auto. } intros x []. }
    destruct w as [| |g].
    - apply AC. destruct tun; auto.
    - destruct tun; [|apply AC; auto]. assert (X2 : expo t1 (r_top s)) by (apply X1; discriminate). pose proof (add_tunable_step t1 (Some (r_top s)) None R1) as ST.
      destruct (add_tunable (Some (r_top s)) None t1) as [[] v|v| | |] eqn:Q; cbn [obind]; intros E; try discriminate E. injection E as <- <-.
      pose proof (tun_cl _ _ _ _ R1 X2 Q) as CL. apply tun_ret in Q as (Q1 & Q2 & Q3 & Q4 & Q5 & Q6 & Q7 & Q8); auto. cbn [ostep] in ST. destruct ST as [ST1 ST2]. { intros k [= <-]. exact X2. }
      exists (f, ITun), []. rewrite !app_nil_r. split; auto. split; auto. split; auto. split; auto. split. eapply rle_trans; eauto. split. rewrite Q4; auto. split. { intros k L. rewrite Q7. auto. }
      split. { cbn [map]. rewrite ?app_nil_r. rewrite Q1. auto. } split.
      { split. rewrite Q7. exact H2. cbn [snd]. split. rewrite Q3. apply in_or_app; right; left; auto. exists []. rewrite Q8. apply in_or_app; right; left; auto. }
      split. { rewrite Q2. apply incl_refl. } split. { rewrite Q3. apply incl_appl, incl_refl. } split. { exact CL. } intros x [].
    - destruct tun; [|apply AC; auto]. intros E. injection E as <- <-. exists (f, IShare g), [(r_top s, g)].
      split; auto. split; auto. split; auto. split; auto. split; auto. split; auto. split; auto. split; auto. split. { split. exact H2. cbn [snd]. left. auto. }
      split. apply incl_refl. split. apply incl_refl. split. { apply cl_refl. auto. } intros x [<-|[]]. cbn [fst snd]. split; auto. split; auto. split; auto. apply X1. discriminate.
  Qed.
  Lemma run_all_ret vars tun l : forall cum s c u, rinv s -> Forall (rd True (entry vars)) l -> run_all tun l cum s = Ret c u ->
    exists ps new, l = map Ok ps /\ Forall (entry vars) ps /\ c = cum ++ new /\ rinv u /\ rle s u /\ r_top u = r_top s + length ps /\ (forall k, k < r_top s -> r_h u k = r_h s k) /\
      Permutation (g_all (r_g u) ++ map fst new) (g_all (r_g s) ++ seq (r_top s) (length ps)) /\ Forall2 (put tun u new) ps (seq (r_top s) (length ps)) /\
      incl (r_const s) (r_const u) /\ incl (r_tun s) (r_tun u) /\ cl_ext s u /\
      (forall x, In x new -> tun = true /\ expo u (fst x) /\ r_top s <= fst x /\ exists f, nth_error ps (fst x - r_top s) = Some (f, IShare (snd x))).
  Proof.
    induction l as [|r l IH]; intros cum s c u I F; cbn [run_all].
    - intros E. injection E as <- <-. exists [], []. cbn [map length seq]. rewrite ?app_nil_r, Nat.add_0_r. split; [auto|]. split; [constructor|]. split; [auto|]. split; [exact I|]. split; [apply rle_refl|]. split; [auto|]. split; [auto|]. split; [auto|]. split; [constructor|]. split; [apply incl_refl|]. split; [apply incl_refl|]. split; [apply cl_refl; auto|]. intros x [].
    - inversion F as [|? ? F1 F2]; subst. destruct (run_one tun r cum s) as [c1 s1|s1| | |] eqn:E1; cbn [obind]; try (intros E; discriminate E). intros E.
      destruct (run_one_ret vars tun r cum s c1 s1 I F1 E1) as (p & new1 & A1 & A2 & A3 & A4 & A5 & A6 & A7 & A8 & A9 & A10 & A11 & A12 & A13).
      destruct (IH c1 s1 c u A4 F2 E) as (ps & new & B1 & B2 & B3 & B4 & B5 & B6 & B7 & B8 & B9 & B10 & B11 & B12 & B13).
      exists (p :: ps), (new1 ++ new). cbn [map length seq]. split. congruence. split. constructor; auto. split. rewrite B3, A3, app_assoc. auto. split; auto. split. eapply rle_trans; eauto.
      split. lia. split. { intros k L. rewrite B7 by lia. auto. } split.
      { rewrite map_app. rewrite A6 in B8. apply (Permutation_trans (l' := (g_all (r_g u) ++ map fst new) ++ map fst new1)).
        - rewrite <- app_assoc. apply Permutation_app_head. apply Permutation_app_comm.
        - rewrite B8. replace (g_all (r_g s) ++ r_top s :: seq (S (r_top s)) (length ps)) with ((g_all (r_g s) ++ [r_top s]) ++ seq (S (r_top s)) (length ps)) by (rewrite <- app_assoc; auto).
          rewrite <- A8. rewrite <- !app_assoc. apply Permutation_app_head. apply Permutation_app_comm. }
      split. { rewrite A6 in B9. constructor.
        - eapply put_ext; [| | | | |exact A9]; auto. intros x J; apply in_or_app; auto. apply B7. lia.
        - eapply f2_impl; [|exact B9]. intros q k. apply put_ext; auto using incl_refl. intros x J; apply in_or_app; auto. apply cl_refl; auto. }
      split. eapply incl_tran; eauto. split. eapply incl_tran; eauto. split. eapply cl_trans; eauto.
      intros x J. apply in_app_or in J as [J|J].
      + destruct (A13 x J) as (C1 & C2 & C3 & C4). split; auto. split. rewrite C2. eapply expo_le; eauto. split. lia. rewrite C2, Nat.sub_diag. cbn [nth_error]. exists (fst p). destruct p as [f w]. cbn [fst snd] in *. congruence.
      + destruct (B13 x J) as (C1 & C2 & C3 & (f & C4)). split; auto. split; auto. split. lia. exists f. replace (fst x - r_top s) with (S (fst x - r_top s1)) by lia. exact C4.
  Qed.
  Lemma shared_ret cum : forall s u, rinv s -> (forall x, In x cum -> expo s (fst x)) -> ofold (fun p s => add_tunable (Some (fst p)) (Some (snd p)) s) cum s = Ret tt u ->
    rinv u /\ rle s u /\ g_all (r_g u) = g_all (r_g s) ++ map fst cum /\ r_const u = r_const s /\ r_tun u = r_tun s ++ map fst cum /\
    (forall k, ~ In k (map fst cum) -> r_h u k = r_h s k) /\ (forall k, same_fun (r_h u k) (r_h s k)) /\ cl_ext s u /\ (forall x, In x cum -> shares u (fst x) (snd x)).
  Proof.
    induction cum as [|p cum IH]; intros s u I X; cbn [ofold].
    - intros E. injection E as <-. cbn [map]. rewrite ?app_nil_r. split; [exact I|]. split; [apply rle_refl|]. split; [auto|]. split; [auto|]. split; [auto|]. split; [auto|]. split; [intros; apply same_fun_refl|]. split; [apply cl_refl; auto|]. intros x [].
    - pose proof (X p (or_introl eq_refl)) as Xp. pose proof (add_tunable_step s (Some (fst p)) (Some (snd p)) I) as ST.
      destruct (add_tunable (Some (fst p)) (Some (snd p)) s) as [[] t|t| | |] eqn:Q; cbn [obind]; try (intros E; discriminate E). intros E.
      cbn [ostep] in ST. destruct ST as [I1 R1]. { intros k [= <-]. exact Xp. }
      pose proof (tun_cl _ _ _ _ I Xp Q) as CL. apply tun_ret in Q as (Q1 & Q2 & Q3 & Q4 & Q5 & Q6 & Q7); auto.
      destruct (IH t u I1) as (B1 & B2 & B3 & B4 & B5 & B6 & B7 & B8 & B9); auto. { intros x J. eapply expo_le; eauto. apply X. right; auto. }
      split; auto. split. eapply rle_trans; eauto. split. rewrite B3, Q1, <- app_assoc. auto. split. congruence. split. rewrite B5, Q3, <- app_assoc. auto.
      split. { intros k NI. cbn [map] in NI. rewrite B6 by (intros J; apply NI; right; auto). apply Q5. intros ->. apply NI. left; auto. }
      split. { intros k. eapply same_fun_trans. apply B7. destruct (Nat.eq_dec k (fst p)) as [->|NE]; auto. rewrite Q5 by auto. apply same_fun_refl. }
      split. eapply cl_trans; eauto. intros x [<-|J]; auto. eapply shares_ext; eauto.
  Qed.
End Loading.

(** {1 The document} *)
Section Reading.
  Context {N : num}.
  Notation rst := (rst (N:=N)).
  Notation func := (func N).
  Variable atof : string -> N.

  (** what is read is what is described *)
  Definition fits (d : described N) (p : func * iway) : Prop :=
    map vname (f_vars (fst p)) = d_names d /\ f_exp (fst p) = d_weight d /\ (forall c, valid_comb (fsizes (fst p)) c -> fimg (fst p) c = d_value d c) /\
    match snd p with
    | IConst => d_tunable d = false
    | ITun => d_tunable d = true /\ d_share d = None
    | IShare g => d_tunable d = true /\ NoDup (map vkey g) /\ exists l, d_share d = Some l /\ (forall n, In n l <-> In n (map vname g))
    end.

  Lemma rmap_f2 {A B} (f : A -> res B) l m : rmap f l = Ok m -> Forall2 (fun a b => f a = Ok b) l m.
  Proof.
    revert m. induction l as [|a l IH]; intros m; cbn [rmap]. { intros E. injection E as <-. constructor. }
    intros E. apply rbind_ok in E as (b & E1 & E). apply rbind_ok in E as (bs & E2 & [= <-]). constructor; auto.
  Qed.
  Lemma to_string_ok x t : to_string x = Ok t -> exists s, x = JStr s /\ t = dump_chars s.
  Proof. destruct x; cbn; try discriminate. intros [= <-]. eauto. Qed.
  Lemma access_ok x n y : access x n = Ok y -> try_access x n = Some y.
  Proof. unfold access. destruct (try_access x n); try discriminate. intros [= <-]; auto. Qed.
  Lemma jindex_ok x n y : jindex x n = Ok y -> try_access x n = Some y.
  Proof. unfold jindex, try_access. destruct x; try discriminate. destruct (jmember l n); try discriminate. intros [= <-]; auto. Qed.
  Lemma find_name_ok e vars n v : find_name e vars n = Ok v -> vname v = n.
  Proof. unfold find_name. destruct (find _ _) as [w|] eqn:F; try discriminate. intros [= <-]. apply find_some in F as [_ F]. apply String.eqb_eq in F. auto. Qed.
  Lemma json_group_ok e vars j g : import_group e vars j = Ok g ->
    json_texts j (map vname (g_soup g)) /\ g_set g = g_soup g /\ NoDup (map vkey (g_soup g)) /\ g_soup g <> [].
  Proof.
    unfold import_group. intros E. apply rbind_ok in E as (vs & E1 & E). destruct (_ && _)%bool; [discriminate|]. apply group_ctor_ok in E as (NE & ND & ->). cbn [g_soup g_set].
    split; auto. apply rmap_f2 in E1. unfold json_texts. clear ND NE. induction E1 as [|a v l m E1 F IH]; cbn [map]; constructor; auto.
    apply rbind_ok in E1 as (t & E2 & E1). apply to_string_ok in E2 as (s & -> & ->). apply find_name_ok in E1. eauto.
  Qed.
  (** the values *)
  Lemma last_value_app l p c : last_value (N:=N) (l ++ [p]) c = if list_eqb (fst p) c then snd p else last_value l c.
  Proof. unfold last_value. rewrite fold_left_app. reflexivity. Qed.
  Definition table (g : group) (l : list (list nat * N)) (b : func) : Prop :=
    wf_func b /\ f_exp b = None /\ f_group b = g /\ forall c, valid_comb (sizes_of g) c -> fimg b c = last_value l c.
  Lemma table_ctor g : built_group g -> table g [] (func_ctor g).
  Proof.
    intros G. destruct (built_group_inv g G) as (WG & NE & M). split; [|split; [|split]]; auto.
    apply func_ctor_wf; auto. apply Forall_forall. intros n J. apply in_map_iff in J as (v & <- & J). rewrite Forall_forall in M. apply made_pos. auto.
  Qed.
  Lemma table_set g l b c x b' : table g l b -> m_set b c x = Ok b' -> table g (l ++ [(c, x)]) b'.
  Proof.
    intros (A1 & A2 & A3 & A4) E. destruct (m_set_spec b c x A1) as [[_ Q]|(_ & _ & b2 & Q & B1 & B2 & B3 & B4)]; rewrite E in Q; try discriminate Q. injection Q as <-.
    split; auto. split. congruence. split. congruence. intros d V. rewrite last_value_app. cbn [fst snd]. unfold fsizes in B4. rewrite A3 in B4. rewrite B4 by auto. destruct (list_eqb c d); auto.
  Qed.
  Lemma table_fold {X} (step : func -> X -> res func) (R : X -> list nat * N -> Prop) g :
    (forall b x b', step b x = Ok b' -> exists c y, R x (c, y) /\ m_set b c y = Ok b') ->
    forall l done b b', table g done b -> rfold step l b = Ok b' -> exists m, Forall2 R l m /\ table g (done ++ m) b'.
  Proof.
    intros S. induction l as [|x l IH]; intros done b b' T; cbn [rfold].
    - intros [= <-]. exists []. rewrite app_nil_r. split; auto.
    - intros E. apply rbind_ok in E as (b1 & E1 & E). destruct (S b x b1 E1) as (c & y & Rx & Q). pose proof (table_set g done b c y b1 T Q) as T1.
      destruct (IH _ _ _ T1 E) as (m & F & T2). exists ((c, y) :: m). split. constructor; auto. rewrite <- app_assoc in T2. exact T2.
  Qed.
  Lemma image_ok b x b' : import_image atof b x = Ok b' -> exists c y, json_entry atof x (c, y) /\ m_set b c y = Ok b'.
  Proof.
    unfold import_image. intros E. apply rbind_ok in E as (jv & E1 & E). apply rbind_ok in E as (c & E2 & E). apply rbind_ok in E as (jd & E3 & E). apply rbind_ok in E as (t & E4 & E).
    exists c, (atof t). split; auto. apply jindex_ok in E1. apply access_ok in E3. apply to_string_ok in E4 as (sd & -> & ->). apply rmap_f2 in E2.
    assert (Q : exists ts, json_texts jv ts /\ Forall2 (fun t k => read_size t = Ok k) ts c).
    { unfold json_texts. clear E1 E. induction E2 as [|a k l m Q F IH]. exists []; split; constructor. destruct IH as (ts & F1 & F2). apply rbind_ok in Q as (t & Q1 & Q2). apply to_string_ok in Q1 as (s & -> & ->).
      exists (dump_chars s :: ts). split; constructor; eauto. }
    destruct Q as (ts & Q1 & Q2). exists jv, ts, (dump_chars sd). split; auto. split; auto. split; auto. split; auto. exists sd; auto.
  Qed.
  Definition one_if_equal (c : list nat) : N := if forallb (fun x => x =? hd 0 c) c then n1 else n0.
  Definition zero_if_equal (c : list nat) : N := if forallb (fun x => x =? hd 0 c) c then n0 else n1.
  Lemma equal_test c : forallb (fun x => x =? hd 0 c) c = true <-> all_equal c.
  Proof.
    rewrite forallb_forall. split.
    - intros F x y Jx Jy. apply F in Jx, Jy. apply Nat.eqb_eq in Jx, Jy. congruence.
    - intros F x J. apply Nat.eqb_eq. destruct c as [|z c]; [destruct J|]. apply F; simpl; auto.
  Qed.
  Lemma one_if_ok : correlating one_if_equal.
  Proof. intros c. unfold one_if_equal. pose proof (equal_test c) as Q. destruct (forallb _ c); split; auto; intros A; exfalso; try (apply A; apply Q; auto; fail). apply Q in A. discriminate. Qed.
  Lemma zero_if_ok : anticorrelating zero_if_equal.
  Proof. intros c. unfold zero_if_equal. pose proof (equal_test c) as Q. destruct (forallb _ c); split; auto; intros A; exfalso; try (apply A; apply Q; auto; fail). apply Q in A. discriminate. Qed.
  Lemma correlated_fits g b : built_group g -> factor_correlated g = Ok b -> wf_func b /\ f_exp b = None /\ f_group b = g /\ forall c, valid_comb (sizes_of g) c -> fimg b c = one_if_equal c.
  Proof.
    intros G E. destruct (built_group_inv g G) as (WG & NE & M). destruct (factor_correlated_spec (N:=N) g NE) as [(_ & f & E' & W & Eg & X & V)|[_ Q]]; [| |congruence].
    { apply Forall_forall. intros n J. apply in_map_iff in J as (v & <- & J). rewrite Forall_forall in M. apply made_pos. auto. }
    rewrite E in E'. injection E' as <-. split; auto. split; auto. split; auto. intros c Vc. destruct (V c Vc) as [V1 V2]. unfold one_if_equal. pose proof (equal_test c) as Q. destruct (forallb _ c).
    apply V1, Q; auto. apply V2. intros A. apply Q in A. discriminate.
  Qed.
  Lemma anticorrelated_fits g b : built_group g -> factor_anticorrelated g = Ok b -> wf_func b /\ f_exp b = None /\ f_group b = g /\ forall c, valid_comb (sizes_of g) c -> fimg b c = zero_if_equal c.
  Proof.
    intros G E. destruct (built_group_inv g G) as (WG & NE & M). destruct (factor_anticorrelated_spec (N:=N) g NE) as [(_ & f & E' & W & Eg & X & V)|[_ Q]]; [| |congruence].
    { apply Forall_forall. intros n J. apply in_map_iff in J as (v & <- & J). rewrite Forall_forall in M. apply made_pos. auto. }
    rewrite E in E'. injection E' as <-. split; auto. split; auto. split; auto. intros c Vc. destruct (V c Vc) as [V1 V2]. unfold zero_if_equal. pose proof (equal_test c) as Q. destruct (forallb _ c).
    apply V1, Q; auto. apply V2. intros A. apply Q in A. discriminate.
  Qed.

  (** a plain factor, its names and its values *)
  Definition plain (names : list string) (value : list nat -> N) (b : func) : Prop :=
    wf_func b /\ f_exp b = None /\ map vname (f_vars b) = names /\ forall c, valid_comb (fsizes b) c -> fimg b c = value c.
  Lemma table_plain g l b : table g l b -> plain (map vname (g_soup g)) (last_value l) b.
  Proof. intros (A1 & A2 & A3 & A4). split; auto. split; auto. split. unfold f_vars. rewrite A3. auto. unfold fsizes. rewrite A3. exact A4. Qed.
  Lemma ctor_built vars soup g : Forall made vars -> incl soup vars -> group_ctor soup = Ok g -> built_group g /\ g_soup g = soup.
  Proof.
    intros M I E. split. eapply bg_ctor; [|exact E]. apply Forall_forall. rewrite Forall_forall in M. auto. apply group_ctor_ok in E as (_ & _ & ->). auto.
  Qed.
  Lemma json_factor_ok e vars p b : env_ok e -> Forall made vars -> import_factor atof e vars p = Ok b ->
    exists names value, plain names value b /\ (exists jg, try_access p "Variables" = Some jg /\ json_texts jg names) /\
      match try_access p "Correlation" with
      | Some _ => json_text p "Correlation" "T" /\ correlating value \/ json_text p "Correlation" "F" /\ anticorrelating value
      | None => exists jd l, try_access p "Distr_val" = Some jd /\ Forall2 (json_entry atof) (jiter jd) l /\ value = last_value l
      end.
  Proof.
    intros EO M. unfold import_factor. intros E. apply rbind_ok in E as (jg & E1 & E). apply rbind_ok in E as (g & E2 & E). apply access_ok in E1.
    assert (IV : incl (g_soup g) vars). { pose proof (json_group True e EO vars M jg) as Q. rewrite E2 in Q. apply Q. }
    destruct (json_group_ok e vars jg g E2) as (G1 & _).
    destruct (try_access p "Correlation") as [jc|] eqn:EC.
    - apply rbind_ok in E as (c & E3 & E). apply to_string_ok in E3 as (sc & -> & ->). apply rbind_ok in E as (g' & E4 & E). destruct (ctor_built vars _ g' M IV E4) as [B ES].
      destruct (String.eqb_spec (dump_chars sc) "T").
      + apply correlated_fits in E as (W & X & Eg & V); auto. exists (map vname (g_soup g)), one_if_equal. split; [|split]; eauto.
        * split; auto. split; auto. split. unfold f_vars. rewrite Eg, ES. auto. unfold fsizes. rewrite Eg. exact V.
        * left. split. exists sc. split; congruence. apply one_if_ok.
      + destruct (String.eqb_spec (dump_chars sc) "F"); [|discriminate]. apply anticorrelated_fits in E as (W & X & Eg & V); auto. exists (map vname (g_soup g)), zero_if_equal. split; [|split]; eauto.
        * split; auto. split; auto. split. unfold f_vars. rewrite Eg, ES. auto. unfold fsizes. rewrite Eg. exact V.
        * right. split. exists sc. split; congruence. apply zero_if_ok.
    - apply rbind_ok in E as (g' & E4 & E). destruct (ctor_built vars _ g' M IV E4) as [B ES]. apply rbind_ok in E as (jd & E3 & E). apply access_ok in E3.
      destruct (table_fold (import_image atof) (json_entry atof) g' image_ok _ [] _ _ (table_ctor g' B) E) as (m & F & T). apply table_plain in T. rewrite ES in T.
      exists (map vname (g_soup g)), (last_value m). split; [exact T|]. split; eauto.
  Qed.
  Lemma exp_plain names value b w f : plain names value b -> exp_ctor b w = Ok f ->
    map vname (f_vars f) = names /\ f_exp f = Some w /\ forall c, valid_comb (fsizes f) c -> fimg f c = value c.
  Proof.
    intros (A1 & A2 & A3 & A4) E. destruct (exp_ctor_ok b w A1) as (f' & E' & _ & G & X & V). rewrite E in E'. injection E' as <-.
    split. unfold f_vars in *. rewrite G. auto. split; auto. unfold fsizes in *. rewrite G. intros c Vc. rewrite V; auto.
  Qed.
  Lemma json_potential_ok e vars p x : env_ok e -> Forall made vars -> import_potential atof e vars p = Ok x -> exists d, json_describes atof p d /\ fits d x.
  Proof.
    intros EO M. unfold import_potential. intros E. apply rbind_ok in E as (b & E1 & E). destruct (json_factor_ok e vars p b EO M E1) as (names & value & P & D1 & D2).
    destruct (try_access p "weight") as [jw|] eqn:EW.
    2:{ injection E as <-. exists {| d_names := names; d_weight := None; d_tunable := false; d_share := None; d_value := value |}. split.
        - constructor; cbn [d_names d_weight d_tunable d_share d_value]; auto. rewrite EW. auto. destruct (try_access p "Share"); auto. discriminate.
        - destruct P as (P1 & P2 & P3 & P4). split; [exact P3|]. split; [exact P2|]. split; [exact P4|]. reflexivity. }
    apply rbind_ok in E as (w & E2 & E). apply to_string_ok in E2 as (sw & -> & ->). apply rbind_ok in E as (f & E3 & E). destruct (exp_plain names value b _ f P E3) as (F1 & F2 & F3).
    apply rbind_ok in E as (tn & E4 & E).
    assert (TN : tn = true <-> json_text p "tunability" "Y").
    { destruct (try_access p "tunability") as [jt|] eqn:ET.
      - apply rbind_ok in E4 as (t & E4 & [= <-]). apply to_string_ok in E4 as (st & -> & ->). split.
        + intros Q. apply String.eqb_eq in Q. exists st. split; auto.
        + intros (s' & Q & Q'). rewrite ET in Q. injection Q as <-. apply String.eqb_eq. auto.
      - injection E4 as <-. split. discriminate. intros (s' & Q & _). congruence. }
    assert (DD : forall share, match try_access p "Share" with None => share = None | Some js => tn = true -> exists l, share = Some l /\ json_texts js l end ->
      json_describes atof p {| d_names := names; d_weight := Some (atof (dump_chars sw)); d_tunable := tn; d_share := share; d_value := value |}).
    { intros share Sh. constructor; cbn [d_names d_weight d_tunable d_share d_value]; auto. rewrite EW. exists (dump_chars sw). split; auto. exists sw. auto. }
    destruct tn.
    - destruct (try_access p "Share") as [js|].
      + apply rbind_ok in E as (g & E5 & [= <-]). destruct (json_group_ok e vars js g E5) as (G1 & G2 & G3 & G4). exists {| d_names := names; d_weight := Some (atof (dump_chars sw)); d_tunable := true; d_share := Some (map vname (g_soup g)); d_value := value |}.
        split. { apply DD. intros _. eauto. } split; [exact F1|]. split; [exact F2|]. split; [exact F3|]. cbn [snd d_tunable d_share]. split; auto. rewrite G2. split; auto. exists (map vname (g_soup g)). split; auto. tauto.
      + injection E as <-. eexists. split. { apply (DD None). auto. } split; [exact F1|]. split; [exact F2|]. split; [exact F3|]. split; reflexivity.
    - injection E as <-. eexists. split. { apply (DD None). destruct (try_access p "Share"); auto. discriminate. } split; [exact F1|]. split; [exact F2|]. split; [exact F3|]. reflexivity.
  Qed.
End Reading.

(** {1 Xml} *)
Section ReadingXml.
  Context {N : num}.
  Notation func := (func N).
  Variable atof : string -> N.
  Variable place : list nat -> list nat.
  Variable files : string -> option string.
  Variable prefix : string.

  Lemma attr_ok x n y : attr place x n = Ok y -> try_attr place x n = Some y.
  Proof. unfold attr. destruct (try_attr place x n); try discriminate. intros [= <-]; auto. Qed.
  Lemma xml_group_ok e vars t g : xml_import_group place e vars t = Ok g ->
    map vname (g_soup g) = range place (attributes t) "var" /\ g_set g = g_soup g /\ NoDup (map vkey (g_soup g)) /\ g_soup g <> [].
  Proof.
    unfold xml_import_group. intros E. apply rbind_ok in E as (vs & E1 & E). destruct (_ && _)%bool; [discriminate|]. apply group_ctor_ok in E as (NE & ND & ->). cbn [g_soup g_set].
    split; auto. apply rmap_f2 in E1. clear ND NE. induction E1 as [|a v l m E1 F IH]; cbn [map]; auto. apply find_name_ok in E1. congruence.
  Qed.
  Lemma xml_image_ok b x b' : xml_import_image atof place b x = Ok b' -> exists c y, xml_entry atof place x (c, y) /\ m_set b c y = Ok b'.
  Proof.
    unfold xml_import_image. intros E. apply rbind_ok in E as (c & E2 & E). apply rbind_ok in E as (t & E3 & E). apply attr_ok in E3. apply rmap_f2 in E2.
    exists c, (atof t). split; auto. split; auto. exists t; auto.
  Qed.
  Lemma table_lines g l : forall done b b', table g done b ->
    ofold (fun line f => do (p, f) <- lift (parse_combination_image atof line) f ;; if length (fst p) =? length (f_vars f) then set_image f (fst p) (snd p) else Thr f) l b = Ret tt b' ->
    exists m, Forall2 (fun line x => parse_combination_image atof line = Ok x) l m /\ table g (done ++ m) b'.
  Proof.
    induction l as [|x l IH]; intros done b b' T; cbn [ofold].
    - intros [= <-]. exists []. rewrite app_nil_r. split; auto.
    - destruct (parse_combination_image atof x) as [[c y]| | | |] eqn:EP; cbn [lift obind fst snd]; try discriminate. destruct (length c =? length (f_vars b)); [|discriminate].
      unfold set_image. destruct (m_set b c y) as [b1| | | |] eqn:EM; cbn [obind]; try discriminate. intros E. pose proof (table_set g done b c y b1 T EM) as T1.
      destruct (IH _ _ _ T1 E) as (m & F & T2). exists ((c, y) :: m). split. constructor; auto. rewrite <- app_assoc in T2. exact T2.
  Qed.
  Lemma table_clear g : built_group g -> table (N:=N) g [] (f_clear (func_ctor g)).
  Proof.
    intros G. destruct (table_ctor (N:=N) g G) as (A1 & A2 & A3 & A4). split. apply f_clear_wf; auto. auto.
  Qed.
  Lemma xml_factor_ok e vars p b : env_ok e -> Forall made vars -> xml_import_factor atof place files prefix e vars p = Ok b ->
    exists value, plain (range place (attributes p) "var") value b /\
      match try_attr place p "Correlation" with
      | Some c => c = "T"%string /\ correlating value \/ c = "F"%string /\ anticorrelating value
      | None => match try_attr place p "Source" with
                | None => exists l, Forall2 (xml_entry atof place) (range place (nested p) "Distr_val") l /\ value = last_value l
                | Some source => exists text l, files (prefix ++ "/" ++ source)%string = Some text /\
                    Forall2 (fun line x => parse_combination_image atof line = Ok x) (lines text) l /\ value = last_value l
                end
      end.
  Proof.
    intros EO M. unfold xml_import_factor. intros E. apply rbind_ok in E as (g & E2 & E).
    assert (IV : incl (g_soup g) vars). { pose proof (tag_group True place e EO vars M p) as Q. rewrite E2 in Q. apply Q. }
    destruct (xml_group_ok e vars p g E2) as (G1 & _). apply rbind_ok in E as (g' & E4 & E). destruct (ctor_built vars _ g' M IV E4) as [B ES].
    destruct (try_attr place p "Correlation") as [c|].
    - destruct (String.eqb_spec c "T").
      + apply correlated_fits in E as (W & X & Eg & V); auto. exists one_if_equal. split.
        * split; auto. split; auto. split. unfold f_vars. rewrite Eg, ES. auto. unfold fsizes. rewrite Eg. exact V.
        * left. split; auto. apply one_if_ok.
      + destruct (String.eqb_spec c "F"); [|discriminate]. apply anticorrelated_fits in E as (W & X & Eg & V); auto. exists zero_if_equal. split.
        * split; auto. split; auto. split. unfold f_vars. rewrite Eg, ES. auto. unfold fsizes. rewrite Eg. exact V.
        * right. split; auto. apply zero_if_ok.
    - destruct (try_attr place p "Source") as [source|].
      + destruct (files (prefix ++ "/" ++ source)%string) as [text|] eqn:EF; [|discriminate]. destruct (import_values atof (func_ctor g') text) as [[] f| | | |] eqn:EI; try discriminate. injection E as <-.
        destruct (table_lines g' _ [] _ _ (table_clear g' B) EI) as (m & F & T). apply table_plain in T. rewrite ES, G1 in T. exists (last_value m). split; [exact T|]. exists text, m. auto.
      + destruct (table_fold (xml_import_image atof place) (xml_entry atof place) g' xml_image_ok _ [] _ _ (table_ctor g' B) E) as (m & F & T). apply table_plain in T. rewrite ES, G1 in T.
        exists (last_value m). split; [exact T|]. exists m. auto.
  Qed.
  Lemma xml_potential_ok e vars p x : env_ok e -> Forall made vars -> xml_import_potential atof place files prefix e vars p = Ok x ->
    exists d, xml_describes_factor atof place files prefix p d /\ fits d x.
  Proof.
    intros EO M. unfold xml_import_potential. intros E. apply rbind_ok in E as (b & E1 & E). destruct (xml_factor_ok e vars p b EO M E1) as (value & P & D2).
    set (names := range place (attributes p) "var") in *.
    destruct (try_attr place p "weight") as [w|] eqn:EW.
    2:{ injection E as <-. exists {| d_names := names; d_weight := None; d_tunable := false; d_share := None; d_value := value |}. split.
        - constructor; cbn [d_names d_weight d_tunable d_share d_value]; auto. rewrite EW. auto. destruct (mfind place (nested p) "Share"); auto. discriminate.
        - destruct P as (P1 & P2 & P3 & P4). split; [exact P3|]. split; [exact P2|]. split; [exact P4|]. reflexivity. }
    apply rbind_ok in E as (f & E3 & E). destruct (exp_plain names value b _ f P E3) as (F1 & F2 & F3).
    set (tn := match try_attr place p "tunability" with None => false | Some x => String.eqb x "Y" end) in *.
    assert (TN : tn = true <-> try_attr place p "tunability" = Some "Y"%string).
    { unfold tn. destruct (try_attr place p "tunability") as [t|]; [|split; discriminate]. rewrite String.eqb_eq. split; congruence. }
    assert (DD : forall share, match mfind place (nested p) "Share" with None => share = None | Some t => tn = true -> share = Some (range place (attributes t) "var") end ->
      xml_describes_factor atof place files prefix p {| d_names := names; d_weight := Some (atof w); d_tunable := tn; d_share := share; d_value := value |}).
    { intros share Sh. constructor; cbn [d_names d_weight d_tunable d_share d_value]; auto. rewrite EW. auto. }
    clearbody tn. destruct tn.
    - destruct (mfind place (nested p) "Share") as [js|].
      + apply rbind_ok in E as (g & E5 & [= <-]). destruct (xml_group_ok e vars js g E5) as (G1 & G2 & G3 & G4). exists {| d_names := names; d_weight := Some (atof w); d_tunable := true; d_share := Some (map vname (g_soup g)); d_value := value |}.
        split. { apply DD. intros _. rewrite G1. auto. } split; [exact F1|]. split; [exact F2|]. split; [exact F3|]. cbn [snd d_tunable d_share]. split; auto. rewrite G2. split; auto. exists (map vname (g_soup g)). split; auto. tauto.
      + injection E as <-. eexists. split. { apply (DD None). auto. } split; [exact F1|]. split; [exact F2|]. split; [exact F3|]. split; reflexivity.
    - injection E as <-. eexists. split. { apply (DD None). destruct (mfind place (nested p) "Share"); auto. discriminate. } split; [exact F1|]. split; [exact F2|]. split; [exact F3|]. reflexivity.
  Qed.
End ReadingXml.

(** {1 The variables and the evidences} *)
Section Variables.
  Context {X : Type}.
  Variable step : ivars -> X -> res ivars.
  Variable is : X -> string * nat -> Prop.
  Variable ev : X -> option nat -> Prop.
  Hypothesis step_ok : forall st x st', step st x = Ok st' -> exists key o, is x key /\ ev x o /\ map vkey (iv_vars st') = map vkey (iv_vars st) ++ [key] /\
    ~ In key (map vkey (iv_vars st)) /\
    iv_ev st' = match o with None => iv_ev st | Some k => if existsb (fun p => String.eqb (fst p) (fst key)) (iv_ev st) then iv_ev st else iv_ev st ++ [(fst key, k)] end.
  (** what has been read *)
  Definition ivread (st : ivars) (vs : list ((string * nat) * option nat)) : Prop :=
    map vkey (iv_vars st) = map fst vs /\ NoDup (map fst vs) /\ NoDup (map fst (iv_ev st)) /\
    (forall n k, In (n, k) (iv_ev st) -> exists z, In ((n, z), Some k) vs) /\ (forall n z k, In ((n, z), Some k) vs -> In n (map fst (iv_ev st))).
  Lemma variables_ok l : forall st vs st', ivread st vs -> rfold step l st = Ok st' -> exists ws, Forall2 (fun x v => is x (fst v) /\ ev x (snd v)) l ws /\ ivread st' (vs ++ ws).
  Proof.
    induction l as [|x l IH]; intros st vs st' R; cbn [rfold].
    - intros [= <-]. exists []. rewrite app_nil_r. split; auto.
    - intros E. apply rbind_ok in E as (s1 & E1 & E). destruct (step_ok st x s1 E1) as (key & o & I1 & I2 & I3 & I4 & I5). destruct R as (A1 & A2 & A3 & A4 & A5).
      assert (R1 : ivread s1 (vs ++ [(key, o)])).
      { split; [|split; [|split; [|split]]].
        - rewrite I3, A1, map_app. auto.
        - rewrite map_app. cbn [map fst]. apply nodup_snoc; auto. rewrite <- A1; auto.
        - rewrite I5. destruct o as [k|]; auto. destruct (existsb _ (iv_ev st)) eqn:EX; auto. rewrite map_app. cbn [map fst].
          apply nodup_snoc; auto. intros J. apply in_map_iff in J as (p & E2 & J). assert (C : existsb (fun p => String.eqb (fst p) (fst key)) (iv_ev st) = true). { apply existsb_exists. exists p. split; auto. apply String.eqb_eq. auto. } congruence.
        - intros n k J. rewrite I5 in J. assert (J' : In (n, k) (iv_ev st) \/ o = Some k /\ n = fst key).
          { destruct o as [k'|]; auto. destruct (existsb _ (iv_ev st)); auto. apply in_app_or in J as [J|[J|[]]]; auto. injection J as <- <-. auto. }
          destruct J' as [J'|[-> ->]]. { destruct (A4 n k J') as [z Jz]. exists z. apply in_or_app; auto. } exists (snd key). apply in_or_app. right. left. destruct key; auto.
        - intros n z k J. assert (M : incl (map fst (iv_ev st)) (map fst (iv_ev s1))). { rewrite I5. destruct o; [|apply incl_refl]. destruct (existsb _ _). apply incl_refl. rewrite map_app. apply incl_appl, incl_refl. }
          apply in_app_or in J as [J|[J|[]]]. { apply M. eapply A5; eauto. } injection J as -> ->. rewrite I5. cbn [fst]. destruct (existsb _ (iv_ev st)) eqn:EX.
          + apply existsb_exists in EX as (p & J & Q). apply String.eqb_eq in Q. cbn [fst] in Q. rewrite <- Q. apply in_map. auto.
          + rewrite map_app. apply in_or_app. right. left. auto. }
      destruct (IH _ _ _ R1 E) as (ws & F & R2). exists ((key, o) :: ws). split. constructor; auto. rewrite <- app_assoc in R2. exact R2.
  Qed.
End Variables.
Lemma ivread_nil next : ivread (mkIV next [] []) [].
Proof. split; auto. split. constructor. split. constructor. split. intros n k []. intros n z k []. Qed.
Lemma mem_key vs v : vset_mem vs v = false -> ~ In (vkey v) (map vkey vs).
Proof.
  intros E J. apply in_map_iff in J as (w & K & J). assert (C : vset_mem vs v = true); [|congruence]. apply existsb_exists. exists w. split; auto. apply var_veqb_key. auto.
Qed.
Lemma make_key id n name v : make_variable id n name = Ok v -> vkey v = (name, n).
Proof. unfold make_variable. destruct (_ =? 0); [discriminate|]. destruct (_ =? 0); [discriminate|]. intros [= <-]. reflexivity. Qed.
Lemma json_step_ok st x st' : import_variable st x = Ok st' -> exists key o, json_variable_is x key /\ json_evidence x o /\ map vkey (iv_vars st') = map vkey (iv_vars st) ++ [key] /\
  ~ In key (map vkey (iv_vars st)) /\
  iv_ev st' = match o with None => iv_ev st | Some k => if existsb (fun p => String.eqb (fst p) (fst key)) (iv_ev st) then iv_ev st else iv_ev st ++ [(fst key, k)] end.
Proof.
  unfold import_variable. intros E. apply rbind_ok in E as (jn & E1 & E). apply access_ok in E1. apply rbind_ok in E as (name & E2 & E). apply to_string_ok in E2 as (sn & -> & ->).
  apply rbind_ok in E as (js & E3 & E). apply access_ok in E3. apply rbind_ok in E as (size & E4 & E). apply to_string_ok in E4 as (ss & -> & ->).
  apply rbind_ok in E as (n & E5 & E). apply rbind_ok in E as (v & E6 & E). apply make_key in E6. destruct (vset_mem (iv_vars st) v) eqn:EM; [discriminate|]. apply mem_key in EM. rewrite E6 in EM.
  apply rbind_ok in E as (evl & E7 & [= <-]). cbn [iv_vars iv_ev]. exists (dump_chars sn, n). rewrite map_app. cbn [map fst]. rewrite E6.
  assert (V : json_variable_is x (dump_chars sn, n)). { split. exists sn; auto. exists (dump_chars ss). split; auto. exists ss; auto. }
  unfold json_evidence. destruct (try_access x "evidence") as [jo|] eqn:EO.
  - apply rbind_ok in E7 as (o & E7 & E8). apply to_string_ok in E7 as (so & -> & ->). apply rbind_ok in E8 as (k & E8 & [= <-]). exists (Some k). split; auto. split; auto. exists (dump_chars so). split; auto. exists so; auto.
  - injection E7 as <-. exists None. auto.
Qed.
Lemma xml_step_ok place st x st' : xml_import_variable place st x = Ok st' -> exists key o, xml_variable_is place x key /\ xml_evidence place x o /\ map vkey (iv_vars st') = map vkey (iv_vars st) ++ [key] /\
  ~ In key (map vkey (iv_vars st)) /\
  iv_ev st' = match o with None => iv_ev st | Some k => if existsb (fun p => String.eqb (fst p) (fst key)) (iv_ev st) then iv_ev st else iv_ev st ++ [(fst key, k)] end.
Proof.
  unfold xml_import_variable. intros E. apply rbind_ok in E as (name & E1 & E). apply attr_ok in E1. apply rbind_ok in E as (size & E3 & E). apply attr_ok in E3.
  apply rbind_ok in E as (n & E5 & E). apply rbind_ok in E as (v & E6 & E). apply make_key in E6. destruct (vset_mem (iv_vars st) v) eqn:EM; [discriminate|]. apply mem_key in EM. rewrite E6 in EM.
  apply rbind_ok in E as (evl & E7 & [= <-]). cbn [iv_vars iv_ev]. exists (name, n). rewrite map_app. cbn [map fst]. rewrite E6.
  assert (V : xml_variable_is place x (name, n)). { split; auto. exists size. auto. }
  unfold xml_evidence. destruct (try_attr place x "evidence") as [o|] eqn:EO.
  - apply rbind_ok in E7 as (k & E8 & [= <-]). exists (Some k). split; auto. split; auto. exists o; auto.
  - injection E7 as <-. exists None. auto.
Qed.

Section Evidences.
  Context {N : num}.
  Notation rst := (rst (N:=N)).
  Notation gst := (gst (N:=N)).
  Implicit Types s u : rst.
  Lemma set_ret H e (g : gst) n k g' : set_evidence_name H e g n k = Ret tt g' -> exists v a, In v (g_vars g) /\ vname v = n /\ find_node g v = Some a /\ g_ev g' a = Some k.
  Proof.
    unfold set_evidence_name, find_variable. destruct (find _ (g_vars g)) as [v|] eqn:F; cbn [lift obind]; [|discriminate].
    apply find_some in F as [Jv En]. apply String.eqb_eq in En. unfold set_evidence. destruct (vsize v <=? k); [discriminate|].
    destruct (locate g v) as [[a l]|] eqn:L; [|discriminate].
    assert (FN : find_node g v = Some a). { unfold locate in L. destruct (find_node g v) as [b|]; [|discriminate]. destruct (g_ev g b); [|destruct (find_pos _ _)]; injection L; congruence. }
    intros Q. exists v, a. split; auto. split; auto. split; auto. revert Q.
    assert (S : forall (u : gst), (do (_, s) <- (do (_, s) <- Ret tt (set_ev u (fupd (g_ev u) a (Some k))) ;; send_evidence H e a k s) ;; Ret tt (reset_belief s)) = Ret tt g' -> g_ev g' a = Some k).
    { intros u. cbn [obind]. pose proof (send_evs H e a k _ _ (conj eq_refl eq_refl : evs (set_ev u (fupd (g_ev u) a (Some k))) (set_ev u (fupd (g_ev u) a (Some k))))) as Q.
      destruct (send_evidence H e a k _) as [[] u'|u'| | |]; cbn [obind oevs] in *; try discriminate. intros E. injection E as <-. destruct Q as [Q _]. change (g_ev u' a = Some k). rewrite Q. cbn [g_ev set_ev]. apply fupd_eq. }
    destruct l as [i|x]; [|apply (S g)].
    destruct (ofold _ _ g) as [[] u|u| | |]; cbn [obind]; try discriminate.
    destruct (get_cl u i) as [ci| | | |]; cbn [lift obind]; try discriminate.
    destruct (length (cl_nodes ci) =? 1); apply S.
  Qed.
  Definition has_ev (n : string) (k : nat) (g : gst) : Prop := exists v a, In v (g_vars g) /\ vname v = n /\ find_node g v = Some a /\ g_ev g a = Some k.
  Lemma has_ev_keep n n' k g g' : n <> n' -> gset n' g g' -> has_ev n k g -> has_ev n k g'.
  Proof.
    intros NE [E1 E2] (v & a & A1 & A2 & A3 & A4). exists v, a. rewrite E1. split; auto. split; auto. split. unfold find_node in *. rewrite E1. auto. rewrite E2; auto.
    intros w W En. apply NE. unfold find_node in A3. apply find_pos_some in A3 as (w' & B1 & B2 & _). assert (w' = w) by (unfold var_at in W; congruence). subst w'. apply var_veqb_key in B2. unfold vkey in B2. congruence.
  Qed.
  Lemma has_ev_loaded n k s : has_ev n k (r_g s) -> evidence_loaded n k s.
  Proof.
    intros (v & a & A1 & A2 & A3 & A4). exists v. split; auto. split; auto. unfold sp_evidence, contents, spec_of. cbn [sp_ev].
    assert (Q : find_pos (fun w => String.eqb (vname w) (fst (vname v, vsize v)) && (vsize w =? snd (vname v, vsize v))) (g_vars (r_g s)) = find_node (r_g s) v).
    { unfold find_node. apply find_pos_same. intros w. unfold var_veqb. cbn [fst snd]. rewrite andb_comm. rewrite Nat.eqb_sym, String.eqb_sym. auto. }
    rewrite Q, A3. auto.
  Qed.
  (** the evidences change the graph only, not its factors *)
  Definition only_ev s u : Prop := r_h u = r_h s /\ r_const u = r_const s /\ r_tun u = r_tun s /\ r_tuners u = r_tuners s /\ g_all (r_g u) = g_all (r_g s).
  Lemma evidences_ret e l : forall s u, NoDup (map fst l) -> ofold (fun p s => on_g (fun g => set_evidence_name (r_h s) e g (fst p) (snd p)) s) l s = Ret tt u ->
    only_ev s u /\ (forall n k, In (n, k) l -> has_ev n k (r_g u)) /\ (forall n k, ~ In n (map fst l) -> has_ev n k (r_g s) -> has_ev n k (r_g u)).
  Proof.
    induction l as [|[n k] l IH]; intros s u ND; cbn [ofold].
    - intros [= <-]. split. repeat split; auto. split; auto. intros n k [].
    - cbn [fst snd]. unfold on_g at 1. pose proof (set_gset (r_h s) e (r_g s) n k) as Q. pose proof (call_stat (r_h s) e (OSetName n k) (r_g s) eq_refl) as ST. cbn [call] in ST. unfold omap in ST.
      destruct (set_evidence_name (r_h s) e (r_g s) n k) as [[] g|g| | |] eqn:ES; cbn [obind]; try discriminate. intros E. apply set_ret in ES. cbn [ostat obind] in ST. inversion ND as [|? ? N1 N2]; subst.
      destruct (IH _ _ N2 E) as ((B1 & B2 & B3 & B4 & B5) & C1 & C2). cbn [set_g r_h r_const r_tun r_tuners r_g] in *. split; [|split].
      + repeat split; auto. rewrite B5. apply ST.
      + intros n' k' [J|J]; auto. injection J as <- <-. apply C2. exact N1. destruct ES as (v & a & A1 & A2 & A3 & A4). exists v, a. destruct Q as [Q _]. unfold find_node in *. rewrite Q. auto.
      + intros n' k' NI Hv. cbn [map fst] in NI. apply C2. intros J; apply NI; right; auto. eapply has_ev_keep; [|exact Q|exact Hv]. intros ->. apply NI. left; auto.
  Qed.
End Evidences.

(** {1 Together} *)
Lemma f2_nth {A B} (P Q : A -> B -> Prop) l : forall m, (forall i a b, nth_error l i = Some a -> nth_error m i = Some b -> P a b -> Q a b) -> Forall2 P l m -> Forall2 Q l m.
Proof.
  induction l as [|a l IH]; intros m X F; inversion F as [|? b ? m' Pab F']; subst; constructor. apply (X 0); auto. apply IH; auto. intros i x y. apply (X (S i)).
Qed.
Section Together.
  Context {N : num}.
  Notation rst := (rst (N:=N)).
  Notation func := (func N).
  Implicit Types s u v w : rst.
  Lemma same_img (a b : func) c : same_fun a b -> fimg a c = fimg b c.
  Proof. intros (A1 & A2 & A3 & _). unfold fimg, fsizes. rewrite A1, A3. auto. Qed.
  Lemma put_loaded tun base u v w new (ps : list (func * iway)) i p d :
    nth_error ps i = Some p -> put tun u new p (base + i) ->
    (forall x, In x new -> tun = true /\ expo u (fst x) /\ base <= fst x /\ exists f, nth_error ps (fst x - base) = Some (f, IShare (snd x))) ->
    rinv v -> r_const v = r_const u -> r_tun v = r_tun u ++ map fst new -> (forall k, ~ In k (map fst new) -> r_h v k = r_h u k) -> (forall k, same_fun (r_h v k) (r_h u k)) ->
    cl_ext u v -> (forall x, In x new -> shares v (fst x) (snd x)) -> only_ev v w -> fits d p -> loaded tun w d (base + i).
  Proof.
    intros Ei (P1 & P2) NW I EC ET EH SF CE SH (O1 & O2 & O3 & O4 & O5) (F1 & F2 & F3 & F4).
    assert (EH' : match snd p with IShare _ => tun = false | _ => True end -> r_h w (base + i) = fst p).
    { intros X. rewrite O1, EH; auto. intros J. apply in_map_iff in J as (x & Ex & J). destruct (NW x J) as (T & _ & L & f & E). replace (fst x - base) with i in E by lia. rewrite Ei in E. injection E as ->. cbn [snd] in X. congruence. }
    assert (SF' : same_fun (r_h w (base + i)) (fst p)). { rewrite O1, <- P1. apply SF. }
    assert (CW : tunable_clusters w = tunable_clusters v). { unfold tunable_clusters. rewrite O4. auto. }
    assert (T1 : (tun && d_tunable d)%bool = false -> r_h w (base + i) = fst p).
    { intros T. apply EH'. destruct (snd p); auto. destruct F4 as [F4 _]. rewrite F4, andb_true_r in T. auto. }
    constructor.
    - unfold f_vars in *. destruct SF' as [-> _]. auto.
    - intros c Vc. rewrite (same_img _ _ c SF'). apply F3. unfold fsizes in *. destruct SF' as [E _]. rewrite E in Vc. auto.
    - intros Dw. unfold weight_of. apply (proj2 (proj2 (proj2 SF'))). congruence.
    - intros x Dw. unfold weight_of. split. { intros Q. apply (proj2 (proj2 (proj2 SF'))) in Q. congruence. } intros [T|T]. rewrite T1 by auto. congruence.
      rewrite EH'. congruence. destruct (snd p); auto. destruct F4 as (_ & _ & l & Q & _). congruence.
    - intros T. rewrite O2, EC. destruct (snd p) as [| |g]; auto.
      + destruct F4 as [F4 _]. rewrite F4, andb_true_r in T. rewrite T in P2. exact P2.
      + destruct F4 as [F4 _]. rewrite F4, andb_true_r in T. rewrite T in P2. exact P2.
    - intros T. apply andb_true_iff in T as [T T']. rewrite O3, ET, CW. subst tun. destruct (snd p) as [| |g].
      + congruence.
      + destruct P2 as [P2 (c & P3)]. split. apply in_or_app; auto. destruct F4 as [_ ->]. destruct (cl_in _ _ _ CE P3) as [l J]. exists (c ++ l). exact J.
      + split. { apply in_or_app. right. apply (in_map fst new _ P2). } destruct F4 as (_ & ND & l & -> & EL). destruct (SH _ P2) as (c & f0 & J1 & J2 & J3 & J4 & J5). cbn [fst snd] in *.
        exists c, f0. split; auto. split; auto. split; auto. split; auto. intros n. rewrite EL. rewrite O1.
        assert (WG : wf_group (f_group (r_h v f0))) by (destruct (built_solid _ (ri_built _ I f0)) as ((_ & Q) & _); exact Q).
        destruct WG as [W1 W2]. apply vset_eqb_perm in J5; auto. 2:{ apply (Permutation_NoDup (l := map vkey (g_soup (f_group (r_h v f0))))); auto. apply Permutation_map. apply Permutation_sym. auto. }
        unfold f_vars. assert (PP : Permutation g (g_soup (f_group (r_h v f0)))) by (rewrite <- J5; auto). split; apply Permutation_in; [|apply Permutation_sym]; apply Permutation_map; exact PP.
  Qed.
  (** a document that has been read: [Q]: what is known of the variables *)
  Lemma run_doc_ret vars e tun pots evl s w : env_ok e -> rinv s -> rd True (Forall (rd True (entry vars))) pots -> NoDup (map fst evl) -> run_doc e tun pots evl s = Ret tt w ->
    exists ps, pots = Ok (map Ok ps) /\ Forall (entry vars) ps /\ (forall n k, In (n, k) evl -> evidence_loaded n k w) /\
      forall ds, Forall2 fits ds ps -> exists fs, Forall2 (loaded tun w) ds fs /\ Permutation (g_all (r_g w)) (g_all (r_g s) ++ fs).
  Proof.
    intros E I R ND. unfold run_doc. destruct pots as [l| | | |]; cbn [lift obind rd] in *; try discriminate.
    destruct (run_all tun l [] s) as [cum u| | | |] eqn:E1; cbn [obind]; try discriminate. destruct (ofold _ cum u) as [[] v| | | |] eqn:E2; cbn [obind]; try discriminate. intros E3.
    destruct (run_all_ret vars tun l [] s cum u I R E1) as (ps & new & A1 & A2 & A3 & A4 & A5 & A6 & A7 & A8 & A9 & A10 & A11 & A12 & A13). cbn [app] in A3. subst cum.
    destruct (shared_ret new u v A4) as (B1 & B2 & B3 & B4 & B5 & B6 & B7 & B8 & B9); auto. { intros x J. apply A13; auto. }
    pose proof (permute_perm (e_ord e 1) evl (proj1 E 1)) as PM.
    destruct (evidences_ret e _ v w (Permutation_NoDup (Permutation_sym (Permutation_map fst PM)) ND) E3) as (C1 & C2 & _).
    exists ps. split. congruence. split; auto. split. { intros n k J. apply has_ev_loaded. apply C2. eapply Permutation_in; [apply Permutation_sym, PM|]. auto. }
    intros ds F. exists (seq (r_top s) (length ps)). split.
    -
      assert (F0 : Forall2 (fun p k => exists i, nth_error ps i = Some p /\ k = r_top s + i /\ put tun u new p k) ps (seq (r_top s) (length ps))).
      { eapply f2_nth; [|exact A9]. intros i a b Ha Hb P. exists i. split; auto. split; auto. assert (L : i < length ps) by (apply nth_error_Some; congruence).
        apply nth_error_nth with (d := 0) in Hb. rewrite seq_nth in Hb; auto. }
      eapply f2_trans; [|exact F|exact F0]. intros d p k Fd (i & Ei & -> & P). eapply put_loaded; eauto.
    - destruct C1 as (_ & _ & _ & _ & C1). rewrite C1, B3. exact A8.
  Qed.
End Together.
