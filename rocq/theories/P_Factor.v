(** Properties C03 - C11: factors.

    Vocabulary: [built f] (FactorApi.v) says that [f] is a factor obtained by any
    sequence of calls of the public API; [f_find], [f_findt] are the API queries
    [findImage], [findTransformed]; an [assignment] gives a value to each
    variable and is [proper] for some variables when it respects their sizes. *)
From Coq Require Import String List Arith Bool Lia Permutation QArith Qcanon.
From Verif Require Import Res Num Categoric Combs Func FuncProofs GroupProofs FactorProofs FactorApi P_Categoric.
Import ListNotations.
Open Scope nat_scope.

Section P.
  Context {N : num} (OK : num_ok N).

  (** the operations on the images of a factor *)
  Inductive fop := OpSet (c : list nat) (x : N) | OpClear.

  (** execution; a call that throws leaves the factor as it was before the
      call, since [Mutable::set] throws before touching the function *)
  Definition run_fop (f : func N) (o : fop) : res (func N) :=
    match o with
    | OpClear => Ok (f_clear f)
    | OpSet c x => match m_set f c x with Throw => Ok f | r => r end
    end.

  (** specification: the last value set for [c] after the last clear *)
  Fixpoint last_value (ops : list fop) (c : list nat) (start : N) : N :=
    match ops with
    | [] => start
    | OpClear :: r => last_value r c n0
    | OpSet d x :: r =>
        last_value r c (if list_eqb d c then if nltb x n0 then start else x else start)
    end.

  (** C03. *)
  Theorem C03_total_map : forall (f : func N) ops, built f -> f_exp f = None ->
    exists f', rfold run_fop ops f = Ok f' /\ f_vars f' = f_vars f /\
      (forall c start, valid_comb (map vsize (f_vars f)) c ->
         f_find f c = Ok start ->
         f_find f' c = Ok (last_value ops c start) /\
         f_findt f' c = Ok (last_value ops c start)) /\
      exists es, f_each false f' = Ok es /\
        range_all (map vsize (f_vars f)) = Ok (map fst es) /\
        forall c x, In (c, x) es -> f_find f' c = Ok x.
  Proof.
    intros f ops Hb He. pose proof (built_solid f Hb) as ((W & WG) & Hm). clear Hb.
    assert (G : forall ops f, wf_func f -> f_exp f = None ->
       exists f', rfold run_fop ops f = Ok f' /\ wf_func f' /\ f_group f' = f_group f /\ f_exp f' = None /\
         forall c, valid_comb (fsizes f) c -> fimg f' c = last_value ops c (fimg f c)).
    { clear. induction ops as [|o ops IH]; intros f W He; simpl.
      - exists f. auto.
      - destruct o as [c x|]; simpl.
        + destruct (m_set_spec f c x W) as [[H E]|(Hx & V & f1 & E & W1 & G1 & X1 & I1)]; rewrite E; cbn [rbind].
          * destruct (IH f W He) as (f' & A & B & C & D & I). exists f'. split; [auto|split; [auto|split; [auto|split; [auto|]]]].
            intros d Vd. rewrite I by auto. destruct (list_eqb c d) eqn:Ecd; auto.
            apply list_eqb_eq in Ecd. subst d. destruct H as [H|H]; [rewrite H; auto|contradiction].
          * destruct (IH f1 W1 ltac:(congruence)) as (f' & A & B & C & D & I). exists f'. split; [auto|split; [auto|split; [congruence|split; [auto|]]]].
            intros d Vd. rewrite I by (unfold fsizes in *; rewrite G1; auto).
            rewrite I1 by auto. destruct (list_eqb c d); auto. rewrite Hx. auto.
        + destruct (IH (f_clear f) (f_clear_wf f W) He) as (f' & A & B & C & D & I). exists f'.
          split; [auto|split; [auto|split; [auto|split; [auto|]]]]. intros d Vd. rewrite I by auto. reflexivity. }
    destruct (G ops f W He) as (f' & A & B & C & D & I).
    assert (EV : f_vars f' = f_vars f) by (unfold f_vars; congruence).
    assert (ES : fsizes f' = fsizes f) by (unfold fsizes; congruence).
    exists f'. split; auto. split; auto. split.
    - intros c start V Hs. change (map vsize (f_vars f)) with (fsizes f) in V.
      rewrite f_find_ok in Hs by auto. injection Hs as <-.
      rewrite f_findt_ok, f_find_ok by (auto; rewrite ES; auto). unfold fval, transform. rewrite D.
      rewrite I by auto. auto.
    - rewrite f_each_ok by auto. eexists. split; [reflexivity|]. split.
      + rewrite map_map. simpl. rewrite map_id. rewrite ES. apply range_all_ok.
        apply fsizes_nonempty; auto. apply wf_sizes; auto.
      + intros c x Hin. apply in_map_iff in Hin as (d & E & Hd). injection E as -> <-.
        apply all_combs_In in Hd. apply f_find_ok; auto.
  Qed.

  (** a newly built factor is null everywhere *)
  Theorem C03_new_factor : forall g c, built_group g -> valid_comb (map vsize (g_soup g)) c ->
    f_find (func_ctor (N:=N) g) c = Ok n0.
  Proof.
    intros g c Hg V. destruct (built_group_inv g Hg) as (WG & Hne & Hm).
    rewrite f_find_ok; auto. apply func_ctor_wf; auto. apply made_sizes; auto.
  Qed.

  (** C04. *)
  Theorem C04_invalid_set : forall (f : func N) c x, built f ->
    (m_set f c x = Throw <->
       (x < n0)%num \/ List.length c <> List.length (f_vars f) \/
       exists k v cv, nth_error (f_vars f) k = Some v /\ nth_error c k = Some cv /\ vsize v <= cv) /\
    (m_set f c x = Throw \/ exists f', m_set f c x = Ok f').
  Proof.
    intros f c x Hb. destruct (built_solid f Hb) as ((W & WG) & Hm).
    assert (Q : valid_comb (fsizes f) c \/ ~ valid_comb (fsizes f) c).
    { clear. generalize (fsizes f). revert c. intros c. induction c as [|y c IH]; intros [|s ss].
      - left. constructor.
      - right. intros H; inversion H.
      - right. intros H; inversion H.
      - destruct (lt_dec y s) as [L|L].
        + destruct (IH ss). left. constructor; auto. right. intros H1; inversion H1; auto.
        + right. intros H; inversion H; auto. }
    destruct (m_set_spec f c x W) as [[H E]|(Hx & V & f1 & E & _)].
    - split; [|left; auto]. split; auto. intros _. destruct H as [H|H]; auto. right.
      destruct (Nat.eq_dec (List.length c) (List.length (f_vars f))) as [HL|HL]; auto. right.
      revert H HL. unfold fsizes, sizes_of. change (g_soup (f_group f)) with (f_vars f).
      generalize (f_vars f) as vs. intros vs. revert vs. clear. induction c as [|y c IH]; intros [|v vs] H HL; simpl in *; try lia.
      + exfalso. apply H. constructor.
      + destruct (le_lt_dec (vsize v) y) as [L|L].
        * exists 0, v, y. auto.
        * destruct (IH vs) as (k & v' & cv & A & B & C).
          -- intros V. apply H. constructor; auto.
          -- lia.
          -- exists (S k), v', cv. auto.
    - split; [|eauto]. split; [congruence|]. intros [H|[H|(k & v & cv & A & B & C)]]; exfalso.
      + congruence.
      + apply H. rewrite <- fsizes_length. apply valid_length; auto.
      + apply valid_nth in V as [_ V]. apply (map_nth_error vsize) in A. specialize (V k cv (vsize v) B A). lia.
  Qed.

  (** C05. The enumeration of the non null combinations: every combination of
      the support exactly once with its image; a reported combination that is
      not in the support has been explicitly set to 0. *)
  Theorem C05_nonnull_enumeration : forall (f : func N), built f ->
    exists es, f_each_nonnull false f = Ok es /\ NoDup (map fst es) /\
      (forall c x, In (c, x) es -> f_find f c = Ok x) /\
      (forall c x, valid_comb (map vsize (f_vars f)) c -> f_find f c = Ok x -> x <> n0 -> In (c, x) es).
  Proof.
    intros f Hb. destruct (built_good OK f Hb) as ((W & WG) & Hm & Hn).
    destruct (f_each_nonnull_spec OK false f W) as (r & A & B & C & D). exists r. split; auto. split; auto. split.
    - intros c x H. destruct (C c x H) as [V ->]. apply f_find_ok; auto.
    - intros c x V Hf Hx. rewrite f_find_ok in Hf by auto. injection Hf as <-. apply D; auto.
  Qed.

  (** and with transformed values, for exponential factors too *)
  Theorem C05_nonnull_enumeration_transformed : forall (f : func N), built f ->
    exists es, f_each_nonnull true f = Ok es /\ NoDup (map fst es) /\
      (forall c x, In (c, x) es -> f_findt f c = Ok x) /\
      (forall c x, valid_comb (map vsize (f_vars f)) c -> f_find f c = Ok x -> x <> n0 -> In c (map fst es)).
  Proof.
    intros f Hb. destruct (built_good OK f Hb) as ((W & WG) & Hm & Hn).
    destruct (f_each_nonnull_spec OK true f W) as (r & A & B & C & D). exists r. split; auto. split; auto. split.
    - intros c x H. destruct (C c x H) as [V ->]. apply f_findt_ok; auto.
    - intros c x V Hf Hx. rewrite f_find_ok in Hf by auto. injection Hf as <-.
      specialize (D c V Hx). apply (in_map fst) in D. exact D.
  Qed.

  (** C06. *)
  Definition one_equal_value (c : list nat) : Prop := exists k, Forall (eq k) c.

  Lemma one_equal_value_all c : c <> [] -> (one_equal_value c <-> all_equal c).
  Proof.
    intros Hne. split.
    - intros (k & F) x y Hx Hy. rewrite Forall_forall in F. rewrite <- (F x Hx), <- (F y Hy). auto.
    - intros A. destruct c as [|k c]; [congruence|]. exists k. apply Forall_forall. intros y Hy. apply A; auto. left; auto.
  Qed.

  Theorem C06_correlated : forall g, built_group g ->
    (2 <= List.length (g_soup g) /\ (exists s, Forall (fun v => vsize v = s) (g_soup g)) /\
     exists f, factor_correlated g = Ok f /\ built (N:=N) f /\ f_vars f = g_soup g /\
       forall c, valid_comb (map vsize (g_soup g)) c ->
         (one_equal_value c -> f_find f c = Ok n1) /\ (~ one_equal_value c -> f_find f c = Ok n0)) \/
    ((List.length (g_soup g) = 1 \/ ~ exists s, Forall (fun v => vsize v = s) (g_soup g)) /\
     factor_correlated (N:=N) g = Throw).
  Proof.
    intros g Hg. destruct (built_group_inv g Hg) as (WG & Hne & Hm).
    destruct (factor_correlated_spec (N:=N) g Hne (made_sizes _ Hm)) as [([HL HS] & f & E & W & G & X & I)|[HC E]].
    - left. split; auto. split.
      { destruct (g_soup g) as [|v0 vs]; [congruence|]. exists (vsize v0). apply Forall_forall. intros v Hv. apply HS; auto. left; auto. }
      exists f. split; auto. split. { eapply b_corr; eauto. } split. { unfold f_vars; congruence. }
      intros c V. rewrite f_find_ok; auto. 2:{ unfold fsizes; rewrite G; exact V. }
      rewrite one_equal_value_all.
      2:{ intros ->. inversion V. destruct (g_soup g); simpl in *; congruence. }
      destruct (I c V). split; intros; f_equal; auto.
    - right. split; auto. destruct (g_soup g) as [|v0 vs] eqn:EG; [congruence|].
      destruct vs as [|v1 vs]; auto. right. intros (s & F). apply HC. unfold correlable. rewrite EG. split. simpl; lia.
      rewrite Forall_forall in F. intros v w Hv Hw. rewrite (F v Hv), (F w Hw). auto.
  Qed.

  Theorem C06_anticorrelated : forall g, built_group g ->
    (2 <= List.length (g_soup g) /\ (exists s, Forall (fun v => vsize v = s) (g_soup g)) /\
     exists f, factor_anticorrelated g = Ok f /\ built (N:=N) f /\ f_vars f = g_soup g /\
       forall c, valid_comb (map vsize (g_soup g)) c ->
         (one_equal_value c -> f_find f c = Ok n0) /\ (~ one_equal_value c -> f_find f c = Ok n1)) \/
    ((List.length (g_soup g) = 1 \/ ~ exists s, Forall (fun v => vsize v = s) (g_soup g)) /\
     factor_anticorrelated (N:=N) g = Throw).
  Proof.
    intros g Hg. destruct (built_group_inv g Hg) as (WG & Hne & Hm).
    destruct (factor_anticorrelated_spec (N:=N) g Hne (made_sizes _ Hm)) as [([HL HS] & f & E & W & G & X & I)|[HC E]].
    - left. split; auto. split.
      { destruct (g_soup g) as [|v0 vs]; [congruence|]. exists (vsize v0). apply Forall_forall. intros v Hv. apply HS; auto. left; auto. }
      exists f. split; auto. split. { eapply b_anti; eauto. } split. { unfold f_vars; congruence. }
      intros c V. rewrite f_find_ok; auto. 2:{ unfold fsizes; rewrite G; exact V. }
      rewrite one_equal_value_all.
      2:{ intros ->. inversion V. destruct (g_soup g); simpl in *; congruence. }
      destruct (I c V). split; intros; f_equal; auto.
    - right. split; auto. destruct (g_soup g) as [|v0 vs] eqn:EG; [congruence|].
      destruct vs as [|v1 vs]; auto. right. intros (s & F). apply HC. unfold correlable. rewrite EG. split. simpl; lia.
      rewrite Forall_forall in F. intros v w Hv Hw. rewrite (F v Hv), (F w Hw). auto.
  Qed.

  (** C07. [ord]: any iteration order of the internal set of variables. *)
  Theorem C07_merge : forall ord (fs : list (func N)),
    (forall l, Permutation (ord l) l) -> fs <> [] -> (forall g, In g fs -> built g) ->
    (forall v w, In v (flat_map f_vars fs) -> In w (flat_map f_vars fs) -> vkey v = vkey w -> v = w) ->
    exists f, factor_merge ord fs = Ok f /\ built f /\ NoDup (f_vars f) /\
      (forall v, In v (f_vars f) <-> exists g, In g fs /\ In v (f_vars g)) /\
      forall a xs, proper a (f_vars f) ->
        Forall2 (fun g x => f_findt g (map a (f_vars g)) = Ok x) fs xs ->
        f_findt f (map a (f_vars f)) = Ok (fold_right nmul n1 xs).
  Proof.
    intros ord fs Hord Hne Hb Hc.
    assert (WF : Forall wf_factor fs).
    { apply Forall_forall. intros g Hg. apply (built_solid g (Hb g Hg)). }
    assert (NC : ~ conflict (flat_map f_vars fs)).
    { intros (v & w & Hv & Hw & E & Hn). auto. }
    destruct (factor_merge_ok OK ord fs Hord Hne WF NC) as (f & E & (W & WG) & X & V & I).
    exists f. split; auto. split. { eapply b_merge; eauto. } split. { apply NoDup_vkey_NoDup. apply WG. }
    split; auto. intros a xs Pa F. rewrite f_findt_ok; auto. 2:{ apply (proper_valid a (f_vars f)); auto. }
    f_equal. unfold fval, transform. rewrite X. rewrite I by auto.
    assert (Pg : forall g, In g fs -> proper a (f_vars g)).
    { intros g Hg v Hv. apply Pa. apply V. eauto. }
    clear - F WF Pg. induction F as [|g x fs xs Hx F IH]; simpl; auto. inversion WF; subst.
    rewrite f_findt_ok in Hx. injection Hx as <-. f_equal. apply IH; auto. intros; apply Pg; right; auto.
    apply H1. apply proper_valid. apply Pg. left; auto.
  Qed.

  (** the values [xs] of the previous theorem always exist *)
  Theorem C07_values_exist : forall (fs : list (func N)) a,
    (forall g, In g fs -> built g /\ proper a (f_vars g)) ->
    exists xs, Forall2 (fun g x => f_findt g (map a (f_vars g)) = Ok x) fs xs.
  Proof.
    intros fs a H. exists (map (fun g => fval g (map a (f_vars g))) fs).
    induction fs as [|g fs IH]; simpl; constructor.
    - destruct (H g (or_introl eq_refl)) as [Hb Hp]. destruct (built_solid g Hb) as ((W & _) & _).
      apply f_findt_ok; auto. apply proper_valid; auto.
    - apply IH. intros; apply H; right; auto.
  Qed.

  Theorem C07_merge_throws : forall ord (fs : list (func N)) v w,
    (forall l, Permutation (ord l) l) ->
    fs = [] \/ (In v (flat_map f_vars fs) /\ In w (flat_map f_vars fs) /\
                vname v = vname w /\ vsize v = vsize w /\ v <> w) ->
    factor_merge ord fs = Throw.
  Proof.
    intros ord fs v w Hord [->|(Hv & Hw & E1 & E2 & Hne)].
    - unfold factor_merge, gather_variables. simpl.
      assert (E : ord [] = []). { specialize (Hord []). symmetry in Hord. apply Permutation_nil in Hord. auto. }
      rewrite E. reflexivity.
    - apply factor_merge_throw. exists v, w. unfold vkey. rewrite E1, E2. auto.
  Qed.

  (** C08. *)
  Theorem C08_permuted_clone : forall (f : func N) g, built f -> f_exp f = None -> built_group g ->
    (Permutation (g_soup g) (f_vars f) /\
     exists f', clone_permuted f g = Ok f' /\ built f' /\ f_vars f' = g_soup g /\
       forall a, proper a (f_vars f) ->
         f_find f' (map a (g_soup g)) = f_find f (map a (f_vars f))) \/
    (~ Permutation (g_soup g) (f_vars f) /\ clone_permuted f g = Throw).
  Proof.
    intros f g Hb He Hg. destruct (built_solid f Hb) as (WF & Hm).
    destruct (built_group_inv g Hg) as (WG & Hne & Hmg).
    destruct (Permutation_dec (g_soup g) (f_vars f)) as [P|P].
    - left. split; auto. destruct (clone_permuted_ok f g WF WG P) as (f' & E & (W' & WG') & G' & X' & I').
      exists f'. split; auto. split. { eapply b_perm; eauto. }
      split. { unfold f_vars; congruence. }
      intros a Pa. rewrite !f_find_ok; auto.
      + rewrite I'; auto.
      + apply WF.
      + apply (proper_valid a (f_vars f)); auto.
      + unfold fsizes. rewrite G'. apply (proper_valid a (g_soup g)). intros v Hv. apply Pa. eapply Permutation_in; eauto.
    - right. split; auto. apply clone_permuted_throw; auto.
  Qed.

  (** C09. *)
  Theorem C09_finder : forall (f : func N) bigger, built f ->
    (List.length (f_vars f) <= List.length bigger /\ incl (f_vars f) bigger /\
     exists fd, make_finder f bigger = Ok fd /\
       forall a, proper a (f_vars f) ->
         fd_findt fd (map a bigger) = f_findt f (map a (f_vars f)) /\
         fd_find fd (map a bigger) = f_find f (map a (f_vars f))) \/
    ((List.length bigger < List.length (f_vars f) \/ ~ incl (f_vars f) bigger) /\
     make_finder f bigger = Throw).
  Proof.
    intros f bigger Hb. destruct (built_solid f Hb) as ((W & WG) & Hm).
    destruct (le_lt_dec (List.length (f_vars f)) (List.length bigger)) as [L|L].
    2:{ right. split; auto. apply make_finder_throw; auto. }
    assert (D : incl (f_vars f) bigger \/ ~ incl (f_vars f) bigger).
    { destruct (Forall_dec (fun v => In v bigger) (fun v => in_dec var_eq_dec v bigger) (f_vars f)) as [F|F].
      - left. apply incl_Forall_in_iff; auto.
      - right. intros H. apply F. apply incl_Forall_in_iff; auto. }
    destruct D as [HI|HI].
    - left. split; auto. split; auto. destruct (make_finder_ok f bigger L HI) as (fd & E & _ & _).
      exists fd. split; auto. intros a Pa.
      rewrite (fd_findt_ok f bigger fd a W E Pa), (fd_find_ok f bigger fd a W E Pa).
      rewrite f_findt_ok, f_find_ok; auto; apply (proper_valid a (f_vars f)); auto.
    - right. split; auto. apply make_finder_throw; auto.
  Qed.

  (** C10. *)
  Theorem C10_exponential : forall (f : func N) w, built f -> f_exp f = None ->
    exists e, exp_ctor f w = Ok e /\ built e /\ f_vars e = f_vars f /\ exp_get_weight e = Ok w /\
      forall c x, valid_comb (map vsize (f_vars f)) c -> f_find f c = Ok x ->
        f_find e c = Ok x /\ f_findt e c = Ok (nexp (w * x)%num).
  Proof.
    intros f w Hb He. destruct (built_solid f Hb) as ((W & WG) & Hm).
    destruct (exp_ctor_ok f w W) as (e & E & W' & G' & X' & I').
    exists e. split; auto. split. { eapply b_exp; eauto. } split. { unfold f_vars; congruence. }
    split. { unfold exp_get_weight. rewrite X'. auto. }
    intros c x V Hx. rewrite f_find_ok in Hx by auto. injection Hx as <-.
    assert (V' : valid_comb (fsizes e) c) by (unfold fsizes; rewrite G'; exact V).
    rewrite f_findt_ok, f_find_ok by auto. unfold fval, transform. rewrite X', I'; auto.
  Qed.

  Theorem C10_set_weight : forall (e : func N) w0 w, built e -> exp_get_weight e = Ok w0 ->
    exists e', exp_set_weight e w = Ok e' /\ built e' /\ f_vars e' = f_vars e /\ exp_get_weight e' = Ok w /\
      forall c, f_find e' c = f_find e c.
  Proof.
    intros e w0 w Hb Hw. unfold exp_get_weight in Hw. destruct (f_exp e) eqn:E; [|discriminate].
    assert (H : exp_set_weight e w = Ok (mkFunc (f_group e) (f_info e) (f_data e) (Some w))).
    { unfold exp_set_weight. rewrite E. auto. }
    eexists. split; [exact H|]. split. { eapply b_weight; eauto. } auto.
  Qed.

  Theorem C10_copy : forall (e : func N) w, built e -> exp_get_weight e = Ok w ->
    exists e', exp_copy e = Ok e' /\ built e' /\ f_vars e' = f_vars e /\ exp_get_weight e' = Ok w /\
      forall c, valid_comb (map vsize (f_vars e)) c -> f_find e' c = f_find e c /\ f_findt e' c = f_findt e c.
  Proof.
    intros e w Hb Hw. destruct (built_solid e Hb) as ((W & WG) & Hm).
    destruct (exp_ctor_ok e w W) as (e' & E & W' & G' & X' & I').
    assert (HC : exp_copy e = Ok e') by (unfold exp_copy; rewrite Hw; exact E).
    exists e'. split; auto. split. { eapply b_expcopy; eauto. } split. { unfold f_vars; congruence. }
    split. { unfold exp_get_weight. rewrite X'. auto. }
    intros c V. assert (V' : valid_comb (fsizes e') c) by (unfold fsizes; rewrite G'; exact V).
    rewrite !f_findt_ok, !f_find_ok by auto. unfold fval, transform. rewrite X', I' by auto.
    unfold exp_get_weight in Hw. destruct (f_exp e); [|discriminate]. injection Hw as ->. auto.
  Qed.

  (** the copy constructor of a factor, and the clone of transformed images *)
  Theorem C10_factor_copies : forall (f : func N), built f ->
    (f_exp f = None -> f_vars (factor_copy f) = f_vars f /\
       forall c, valid_comb (map vsize (f_vars f)) c -> f_find (factor_copy f) c = f_find f c) /\
    (exists f', factor_clone_transformed f = Ok f' /\ f_vars f' = f_vars f /\
       forall c, valid_comb (map vsize (f_vars f)) c -> f_find f' c = f_findt f c /\ f_findt f' c = f_findt f c).
  Proof.
    intros f Hb. destruct (built_solid f Hb) as ((W & WG) & Hm). split.
    - intros He. destruct (factor_copy_ok f W) as (W' & G' & X' & I'). split; auto.
      intros c V. rewrite !f_find_ok; auto.
    - destruct (factor_clone_transformed_ok f W) as (f' & E & W' & G' & X' & I').
      exists f'. split; auto. split. { unfold f_vars; congruence. }
      intros c V. assert (V' : valid_comb (fsizes f') c) by (unfold fsizes; rewrite G'; exact V).
      rewrite !f_findt_ok, f_find_ok by auto. unfold fval at 2, transform at 1. rewrite X', I'; auto.
  Qed.

  (** C11. [es] are the combinations in enumeration order with their images. *)
  Theorem C11_probabilities : forall (f : func N), built f ->
    exists es ps, f_each true f = Ok es /\ get_probabilities f = Ok ps /\
      List.length ps = List.length es /\
      fold_right nadd n0 ps = n1 /\ Forall (fun p => (n0 <= p)%num) ps /\
      let total := fold_right nadd n0 (map snd es) in
      (total <> n0 -> Forall2 (fun e p => (p * total)%num = snd e) es ps) /\
      (total = n0 -> forall p q, In p ps -> In q ps -> p = q).
  Proof.
    Add Field NFieldP : (ok_field N OK).
    intros f Hb. pose proof (built_good OK f Hb) as HG. destruct HG as ((W & WG) & Hm & Hn).
    set (cs := all_combs (fsizes f)).
    rewrite f_each_ok by auto. rewrite (get_probabilities_ok OK f W).
    eexists _, _. split; [reflexivity|]. split; [reflexivity|].
    fold cs. set (T := sumL (fval f) cs).
    assert (NN : forall c, In c cs -> (n0 <= fval f c)%num).
    { intros c Hc. apply (fval_nonneg OK); auto. split; [split|]; auto. apply all_combs_In; auto. }
    assert (ET : fold_right nadd n0 (map snd (map (fun c => (c, tr true f (fimg f c))) cs)) = T).
    { rewrite map_map. simpl. unfold T. clear. induction cs as [|c l IH]; simpl; auto. rewrite IH. auto. }
    assert (PP : 0 < prodn (fsizes f)) by (apply prodn_pos; apply wf_sizes; auto).
    assert (PQ : nofnat (prodn (fsizes f)) <> (n0 : N)).
    { apply (nlt_neq' OK). apply (nofnat_pos OK). auto. }
    assert (F : forall (l : list N), fold_right nadd n0 l = sumL (fun x => x) l) by (induction l; simpl; auto).
    cbv zeta. rewrite ET. split; [rewrite !map_length; auto|]. split; [|split; [|split]].
    - rewrite F, sumL_map. destruct (neqb T n0) eqn:E.
      + rewrite (sumL_const OK). unfold cs. rewrite all_combs_length. field. auto.
      + apply (neqb_false OK) in E. rewrite (sumL_div OK) by auto. fold T. field. auto.
    - apply Forall_forall. intros p Hp. apply in_map_iff in Hp as (c & <- & Hc).
      destruct (neqb T n0) eqn:E.
      + apply (nlt_le OK). apply (ninv_pos OK). apply (nofnat_pos OK). auto.
      + apply (neqb_false OK) in E. apply (ndiv_nonneg OK); auto.
        assert (TN : (n0 <= T)%num) by (apply (sumL_nonneg OK); auto).
        apply (nle_lt_eq OK) in TN as [TN|TN]; [auto|congruence].
    - intros HT. apply (neqb_false OK) in HT. rewrite HT. apply (neqb_false OK) in HT.
      clear ET NN. clearbody T. clear - HT OK. clearbody cs. induction cs as [|c l IH]; simpl; constructor; [|exact IH].
      cbn [snd]. unfold fval. simpl. field. auto.
    - intros HT. assert (E : neqb T n0 = true) by (apply (ok_eqb N OK); auto). rewrite E.
      intros p q Hp Hq. apply in_map_iff in Hp as (c & <- & _). apply in_map_iff in Hq as (d & <- & _). auto.
  Qed.
End P.

Print Assumptions C03_total_map.
Print Assumptions C03_new_factor.
Print Assumptions C04_invalid_set.
Print Assumptions C05_nonnull_enumeration.
Print Assumptions C05_nonnull_enumeration_transformed.
Print Assumptions C06_correlated.
Print Assumptions C06_anticorrelated.
Print Assumptions C07_merge.
Print Assumptions C07_values_exist.
Print Assumptions C07_merge_throws.
Print Assumptions C08_permuted_clone.
Print Assumptions C09_finder.
Print Assumptions C10_exponential.
Print Assumptions C10_set_weight.
Print Assumptions C10_copy.
Print Assumptions C10_factor_copies.
Print Assumptions C11_probabilities.

(** {1 The hypotheses can be met}: concrete factors over the rationals *)
Definition q (n : Z) (d : positive) : QcNum := Q2Qc (n # d).

Definition exF : res (func QcNum) :=
  rfold (fun f e => m_set f (fst e) (snd e))
    [([0; 0; 0], q 1 2); ([1; 2; 0], q 3 1); ([0; 1; 1], q 0 1)] (func_ctor exG).
Lemma rfold_mset_built (N : num) (OK : num_ok N) (es : list (list nat * N)) : forall f f', f_exp f = None -> built f ->
  rfold (fun f e => m_set f (fst e) (snd e)) es f = Ok f' -> built f' /\ f_exp f' = None.
Proof.
  induction es as [|e es IH]; simpl; intros f f' He Hb H.
  - injection H as <-. auto.
  - apply rbind_ok in H as (f1 & H1 & H2).
    destruct (built_solid f Hb) as ((W & _) & _).
    destruct (m_set_spec f (fst e) (snd e) W) as [[_ E]|(_ & _ & f2 & E & _ & _ & X & _)];
      rewrite E in H1; [discriminate|]. injection H1 as <-.
    apply (IH f2); auto. congruence. eapply b_set; eauto.
Qed.
(** comparison of a result with an expected number, by computation *)
Definition gives (r : res QcNum) (x : QcNum) : bool := match r with Ok y => neqb y x | _ => false end.
Lemma gives_eq r x : gives r x = true -> r = Ok x.
Proof. destruct r; simpl; try discriminate. intros H. f_equal. apply (ok_eqb _ QcNum_ok). exact H. Qed.

Example exF_built : exists f, exF = Ok f /\ built f /\ f_exp f = None /\
  f_find f [1; 2; 0] = Ok (q 3 1) /\ f_find f [0; 0; 1] = Ok (q 0 1).
Proof.
  assert (C : match exF with
    | Ok f => gives (f_find f [1; 2; 0]) (q 3 1) && gives (f_find f [0; 0; 1]) (q 0 1)
    | _ => false end = true) by (vm_compute; reflexivity).
  destruct exF as [f| | | |] eqn:E; try discriminate C.
  apply andb_prop in C as [C1 C2]. apply gives_eq in C1, C2.
  destruct (rfold_mset_built QcNum QcNum_ok _ (func_ctor exG) f eq_refl (b_ctor exG exG_built) E) as [B X].
  exists f. auto.
Qed.
(** a history that switches from sparse to dense *)
Example C03_witness :
  match rfold run_fop (map (fun c => OpSet c (q 2 1)) (all_combs [2; 3; 2]) ++ [OpSet [1; 1; 1] (q 5 1)])
        (func_ctor (N:=QcNum) exG) with
  | Ok f => gives (f_find f [1; 1; 1]) (q 5 1) && gives (f_find f [1; 1; 0]) (q 2 1) &&
            match f_data f with Dense _ => true | _ => false end
  | _ => false
  end = true.
Proof. vm_compute. reflexivity. Qed.
Example C04_witness : m_set (func_ctor (N:=QcNum) exG) [0; 3; 0] (q 1 1) = Throw.
Proof. vm_compute. reflexivity. Qed.
Example C06_witness :
  match factor_correlated (N:=QcNum) (mkGroup [exA; exC] [exA; exC]),
        factor_anticorrelated (N:=QcNum) (mkGroup [exA; exC] [exA; exC]) with
  | Ok f, Ok g => gives (f_find f [1; 1]) (q 1 1) && gives (f_find g [1; 1]) (q 0 1) && gives (f_find g [0; 1]) (q 1 1)
  | _, _ => false
  end = true.
Proof. vm_compute. reflexivity. Qed.
(** merge of a factor over A, C with a factor over the group A, B, C *)
Example C07_witness :
  match factor_correlated (N:=QcNum) (mkGroup [exA; exC] [exA; exC]), exF with
  | Ok f, Ok g =>
      match factor_merge (@rev var) [f; g] with
      | Ok r => gives (f_findt r [0; 0; 0]) (q 1 2) && (length (f_vars r) =? 3)
      | _ => false
      end
  | _, _ => false
  end = true.
Proof. vm_compute. reflexivity. Qed.
Example C08_witness :
  match exF with
  | Ok f => match clone_permuted f (mkGroup [exC; exB; exA] [exC; exB; exA]) with
            | Ok r => gives (f_findt r [0; 2; 1]) (q 3 1)
            | _ => false
            end
  | _ => false
  end = true.
Proof. vm_compute. reflexivity. Qed.
Example C09_witness :
  match factor_correlated (N:=QcNum) (mkGroup [exA; exC] [exA; exC]) with
  | Ok f => match make_finder f [exB; exC; exA] with
            | Ok fd => gives (fd_findt fd [2; 1; 1]) (q 1 1) && gives (fd_findt fd [2; 0; 1]) (q 0 1)
            | _ => false
            end
  | _ => false
  end = true.
Proof. vm_compute. reflexivity. Qed.
Example C10_witness :
  match exF with
  | Ok f => match exp_ctor f (q 2 1) with
            | Ok e => gives (exp_get_weight e) (q 2 1) && gives (f_find e [1; 2; 0]) (q 3 1)
            | _ => false
            end
  | _ => false
  end = true.
Proof. vm_compute. reflexivity. Qed.
Example C11_witness :
  match exF with
  | Ok f => match get_probabilities f with
            | Ok (p :: _) => neqb p (q 1 7)
            | _ => false
            end
  | _ => false
  end = true.
Proof. vm_compute. reflexivity. Qed.
