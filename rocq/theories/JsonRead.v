(** What the import of json reads from what the export writes *)
From Coq Require Import Ascii String List Arith ZArith Bool Lia Permutation.
From Verif Require Import Res Num Categoric Combs Func FuncProofs GroupProofs FactorProofs FactorApi Special SpecialProofs
  Graph GraphLemmas Belief BPRun Train IO TextSpec TextProofs Json.
Import ListNotations.
Open Scope nat_scope.

(** {1 Strings} *)

(** a character that json writes as it is *)
Definition plain_char (c : ascii) : Prop := 32 <= nat_of_ascii c /\ nat_of_ascii c <> 34 /\ nat_of_ascii c <> 92.
Definition plain (s : string) : Prop := all_chars plain_char s.

Lemma dump_plain s : plain s -> dump_chars s = s.
Proof.
  induction s as [|c r IH]; auto. intros [P Q]. cbn [dump_chars]. rewrite IH by auto. unfold dump_char.
  destruct P as (P1 & P2 & P3). revert P1 P2 P3. generalize (nat_of_ascii c). intros n P1 P2 P3.
  destruct (Nat.eqb_spec n 8); [lia|]. destruct (Nat.eqb_spec n 9); [lia|]. destruct (Nat.eqb_spec n 10); [lia|]. destruct (Nat.eqb_spec n 12); [lia|].
  destruct (Nat.eqb_spec n 13); [lia|]. destruct (Nat.eqb_spec n 34); [lia|]. destruct (Nat.eqb_spec n 92); [lia|]. destruct (Nat.ltb_spec n 32); [lia|]. reflexivity.
Qed.
Lemma written_plain n : plain (written n).
Proof.
  unfold plain, written. eapply all_imp; [|apply uint_chars]. unfold plain_char. intros c. generalize (nat_of_ascii c). intros k [A B]. lia.
Qed.
Lemma to_string_plain s : plain s -> to_string (JStr s) = Ok s.
Proof. intros P. unfold to_string. rewrite dump_plain; auto. Qed.
Lemma read_written n : fits_int n -> read_size (written n) = Ok n.
Proof. intros L. unfold read_size. rewrite atoi_written by auto. cbn [rbind]. rewrite to_size_nat; auto. Qed.
Lemma jiter_jarr l : jiter (jarr l) = l.
Proof. destruct l; auto. Qed.
Lemma rmap_written c : Forall fits_int c -> rmap (fun x => let* s := to_string x in read_size s) (map (fun k => JStr (written k)) c) = Ok c.
Proof.
  induction 1 as [|k l L F IH]; auto. cbn [map rmap]. rewrite to_string_plain by apply written_plain. cbn [rbind]. rewrite read_written by auto. cbn [rbind].
  rewrite IH. reflexivity.
Qed.

(** {1 Variables} *)

(** a variable whose name is written as it is, and whose size fits an int *)
Definition writable (v : var) : Prop := plain (vname v) /\ vname v <> EmptyString /\ 0 < vsize v /\ fits_int (vsize v).

Definition print_item (p : var * option nat) : json :=
  JObj (print_variable (fst p) ++ match snd p with None => [] | Some k => [("evidence"%string, JStr (written k))] end).
Fixpoint fresh (n : nat) (vs : list var) : list var :=
  match vs with [] => [] | v :: r => mkVar n (vname v) (vsize v) :: fresh (S n) r end.
Definition evs (l : list (var * option nat)) : list (string * nat) :=
  flat_map (fun p => match snd p with Some k => [(vname (fst p), k)] | None => [] end) l.

Lemma fresh_keys n vs : map vkey (fresh n vs) = map vkey vs.
Proof. revert n. induction vs as [|v vs IH]; intros n; simpl; auto. rewrite IH. reflexivity. Qed.
Lemma fresh_names n vs : map vname (fresh n vs) = map vname vs.
Proof. revert n. induction vs as [|v vs IH]; intros n; simpl; auto. rewrite IH. reflexivity. Qed.
Lemma fresh_made n vs : Forall writable vs -> Forall made (fresh n vs).
Proof.
  intros F. revert n. induction F as [|v vs (P & NE & L & _) F IH]; intros n; simpl; constructor; auto.
  exists n, (vsize v), (vname v). unfold make_variable. destruct (vname v); [congruence|]. cbn [String.length Nat.eqb].
  destruct (Nat.eqb_spec (vsize v) 0); [lia|]. reflexivity.
Qed.
Lemma vset_mem_name vs v : ~ In (vname v) (map vname vs) -> vset_mem vs v = false.
Proof.
  intros NI. unfold vset_mem. destruct (existsb (var_veqb v) vs) eqn:E; auto. exfalso. apply existsb_exists in E as (w & J & Q).
  unfold var_veqb in Q. apply andb_true_iff in Q as [_ Q]. apply String.eqb_eq in Q. apply NI. rewrite Q. apply in_map; auto.
Qed.

Lemma import_variable_ok st v o : writable v -> ~ In (vname v) (map vname (iv_vars st)) -> ~ In (vname v) (map fst (iv_ev st)) ->
  (forall k, o = Some k -> fits_int k) ->
  import_variable st (print_item (v, o)) = Ok (mkIV (S (iv_next st)) (iv_vars st ++ [mkVar (iv_next st) (vname v) (vsize v)]) (iv_ev st ++ evs [(v, o)])).
Proof.
  intros (P & NE & L & FI) NI NV FO. unfold import_variable, print_item.
  assert (A1 : forall x, access (JObj (print_variable v ++ x)) "name" = Ok (JStr (vname v))) by reflexivity.
  assert (A2 : forall x, access (JObj (print_variable v ++ x)) "Size" = Ok (JStr (written (vsize v)))) by reflexivity.
  cbn [fst snd]. rewrite A1. cbn [rbind]. rewrite to_string_plain by auto. cbn [rbind]. rewrite A2. cbn [rbind].
  rewrite to_string_plain by apply written_plain. cbn [rbind]. rewrite read_written by auto. cbn [rbind].
  assert (M : make_variable (iv_next st) (vsize v) (vname v) = Ok (mkVar (iv_next st) (vname v) (vsize v))).
  { unfold make_variable. destruct (vname v); [congruence|]. cbn [String.length Nat.eqb]. destruct (Nat.eqb_spec (vsize v) 0); [lia|]. reflexivity. }
  rewrite M. cbn [rbind]. rewrite vset_mem_name by auto. destruct o as [k|].
  - assert (A3 : try_access (JObj (print_variable v ++ [("evidence"%string, JStr (written k))])) "evidence" = Some (JStr (written k))) by reflexivity.
    rewrite A3. rewrite to_string_plain by apply written_plain. cbn [rbind]. rewrite read_written by (apply FO; auto). cbn [rbind].
    assert (X : existsb (fun p => String.eqb (fst p) (vname v)) (iv_ev st) = false).
    { destruct (existsb _ _) eqn:E; auto. exfalso. apply existsb_exists in E as (p & J & Q). apply String.eqb_eq in Q. apply NV. rewrite <- Q. apply in_map; auto. }
    rewrite X. reflexivity.
  - assert (A3 : try_access (JObj (print_variable v ++ [])) "evidence" = None) by reflexivity. rewrite A3. cbn [rbind]. rewrite app_nil_r. reflexivity.
Qed.
Lemma evs_names l : incl (map fst (evs l)) (map (fun p => vname (fst p)) l).
Proof.
  intros x J. apply in_map_iff in J as (p & <- & J). apply in_flat_map in J as (q & Jq & J). destruct (snd q); [|contradiction].
  destruct J as [<-|[]]. cbn [fst]. apply (in_map (fun p => vname (fst p))). auto.
Qed.
Lemma import_variables_ok l : forall st, NoDup (map vname (iv_vars st) ++ map (fun p => vname (fst p)) l) ->
  incl (map fst (iv_ev st)) (map vname (iv_vars st)) -> (forall v o, In (v, o) l -> writable v /\ forall k, o = Some k -> fits_int k) ->
  rfold import_variable (map print_item l) st =
    Ok (mkIV (iv_next st + length l) (iv_vars st ++ fresh (iv_next st) (map fst l)) (iv_ev st ++ evs l)).
Proof.
  induction l as [|[v o] l IH]; intros st ND I W.
  - cbn [map rfold fresh evs flat_map length]. rewrite !app_nil_r, Nat.add_0_r. destruct st; auto.
  - cbn [map rfold]. destruct (W v o (or_introl eq_refl)) as [Wv Fo]. cbn [map fst] in ND.
    assert (NI : ~ In (vname v) (map vname (iv_vars st))). { intros Q. apply NoDup_remove_2 in ND. apply ND. apply in_or_app; auto. }
    rewrite import_variable_ok; auto. cbn [rbind]. rewrite IH; cbn [iv_vars iv_next iv_ev].
    + f_equal. f_equal.
      * cbn [length]. lia.
      * cbn [map fst fresh]. rewrite <- app_assoc. reflexivity.
      * rewrite <- app_assoc. f_equal. unfold evs. cbn [flat_map fst snd]. rewrite app_nil_r. reflexivity.
    + rewrite map_app. cbn [map vname]. rewrite <- app_assoc. exact ND.
    + rewrite !map_app. intros x J. apply in_app_or in J as [J|J]; apply in_or_app; auto. right. cbn [map vname].
      apply evs_names in J. exact J.
    + intros w o' J. apply W. right; auto.
Qed.

(** {1 Renaming} *)
Section Names.
  Variable vars : list var.
  Hypothesis ND : NoDup (map vname vars).
  Definition named (name : string) (v : var) : bool := String.eqb (vname v) name.
  Definition renamed (v : var) : var := match find (named (vname v)) vars with Some w => w | None => v end.

  Lemma name_inj v w : In v vars -> In w vars -> vname v = vname w -> v = w.
  Proof.
    revert ND. induction vars as [|u l IH]; simpl; intros Nd Jv Jw E. contradiction. inversion Nd; subst.
    destruct Jv as [<-|Jv], Jw as [<-|Jw]; auto.
    - exfalso. apply H1. rewrite E. apply in_map; auto.
    - exfalso. apply H1. rewrite <- E. apply in_map; auto.
  Qed.
  Lemma find_named l w : incl l vars -> In w l -> find (named (vname w)) l = Some w.
  Proof.
    intros I J. destruct (find (named (vname w)) l) as [u|] eqn:F.
    - apply find_some in F as [Ju Q]. apply String.eqb_eq in Q. f_equal. apply name_inj; auto.
    - pose proof (find_none _ _ F w J) as Q. unfold named in Q. rewrite String.eqb_refl in Q. discriminate.
  Qed.
  Lemma renamed_id w : In w vars -> forall v, vname v = vname w -> renamed v = w.
  Proof. intros J v E. unfold renamed. rewrite E, find_named; auto. apply incl_refl. Qed.
  Lemma find_name_ok e w : env_ok e -> In w vars -> find_name e vars (vname w) = Ok w.
  Proof.
    intros E J. unfold find_name. fold (named (vname w)).
    assert (P : Permutation (permute (e_ord e 0) vars) vars) by (apply permute_perm; intros l; apply E).
    rewrite (find_named _ w); auto. intros x Q. eapply Permutation_in; eauto. eapply Permutation_in; [symmetry; exact P|exact J].
  Qed.
End Names.

Lemma fresh_In n vs v : In v vs -> exists w, In w (fresh n vs) /\ vname w = vname v /\ vsize w = vsize v.
Proof.
  revert n. induction vs as [|u vs IH]; simpl; intros n J. contradiction. destruct J as [<-|J]. eexists. split; [left; reflexivity|]; auto.
  destruct (IH (S n) J) as (w & Jw & Q). eauto.
Qed.
Lemma fresh_back n vs w : In w (fresh n vs) -> exists v, In v vs /\ vname w = vname v /\ vsize w = vsize v.
Proof.
  revert n. induction vs as [|u vs IH]; simpl; intros n J. contradiction. destruct J as [<-|J]. eauto.
  destruct (IH (S n) J) as (v & Jv & Q). eauto.
Qed.

(** {1 Factors} *)
Section Factors.
  Context {N : num} (OK : num_ok N).
  Variable fprint : N -> string.
  Variable atof : string -> N.
  Definition rnd (x : N) : N := atof (fprint x).
  Hypothesis fprint_plain : forall x, plain (fprint x).
  Hypothesis rnd_zero : rnd n0 = n0.
  Hypothesis rnd_nonneg : forall x, (n0 <= x)%num -> (n0 <= rnd x)%num.

  Variable e : env.
  Hypothesis EO : env_ok e.
  (** the variables of the source, and those read *)
  Variable V : list var.
  Variable next : nat.
  Hypothesis VW : Forall writable V.
  Hypothesis VN : NoDup (map vname V).
  Notation vars := (fresh next V).
  Notation rho := (renamed vars).

  Lemma vars_nd : NoDup (map vname vars).
  Proof. rewrite fresh_names. exact VN. Qed.
  Lemma rho_spec v : In v V -> In (rho v) vars /\ vname (rho v) = vname v /\ vsize (rho v) = vsize v.
  Proof.
    intros J. destruct (fresh_In next V v J) as (w & Jw & En & Es). assert (E : rho v = w) by (apply renamed_id; auto using vars_nd).
    rewrite E. auto.
  Qed.
  Lemma rho_inj v w : In v V -> In w V -> rho v = rho w -> v = w.
  Proof.
    intros Jv Jw E. apply (name_inj V VN v w); auto. destruct (rho_spec v Jv) as (_ & Nv & _). destruct (rho_spec w Jw) as (_ & Nw & _). congruence.
  Qed.
  Lemma rho_vars : map rho V = vars.
  Proof.
    assert (Q : forall n vs, incl (fresh n vs) vars -> map rho vs = fresh n vs).
    { intros n vs. revert n. induction vs as [|v vs IH]; intros n I; auto. simpl. f_equal.
      - apply renamed_id; auto using vars_nd. apply I. left; auto.
      - apply IH. intros x J. apply I. right; auto. }
    apply Q. apply incl_refl.
  Qed.
  Lemma rho_keys vs : incl vs V -> map vkey (map rho vs) = map vkey vs.
  Proof.
    intros I. rewrite map_map. apply map_ext_in. intros v J. destruct (rho_spec v (I v J)) as (_ & En & Es). unfold vkey. congruence.
  Qed.
  Lemma rho_sizes vs : incl vs V -> map vsize (map rho vs) = map vsize vs.
  Proof. intros I. rewrite map_map. apply map_ext_in. intros v J. apply (rho_spec v (I v J)). Qed.

  Lemma rmap_names vs : incl vs V ->
    rmap (fun x => let* name := to_string x in find_name e vars name) (map (fun v => JStr (vname v)) vs) = Ok (map rho vs).
  Proof.
    induction vs as [|v vs IH]; intros I; auto. cbn [map rmap]. assert (J : In v V) by (apply I; left; auto).
    rewrite to_string_plain. 2:{ rewrite Forall_forall in VW. apply (VW v J). }
    cbn [rbind]. destruct (rho_spec v J) as (Jr & En & _). rewrite <- En at 1. rewrite find_name_ok; auto using vars_nd. cbn [rbind].
    rewrite IH. reflexivity. intros x Q. apply I. right; auto.
  Qed.
  Lemma import_group_ok vs : incl vs V -> (length vs = 1 \/ length vs = 2) -> NoDup (map vkey vs) ->
    import_group e vars (print_group vs) = Ok (mkGroup (map rho vs) (map rho vs)).
  Proof.
    intros I L K. unfold import_group, print_group. rewrite jiter_jarr, rmap_names by auto. cbn [rbind]. rewrite map_length.
    assert (B : negb (length vs =? 1) && negb (length vs =? 2) = false) by (destruct L as [-> | ->]; reflexivity). rewrite B.
    apply group_ctor_ok. split. { destruct vs; simpl in L; try lia. discriminate. } split; auto. rewrite rho_keys; auto.
  Qed.

  Lemma import_images_ok es : forall b, wf_func b -> built b -> f_exp b = None -> NoDup (map fst es) ->
    (forall c x, In (c, x) es -> valid_comb (fsizes b) c /\ (n0 <= x)%num /\ Forall fits_int c) ->
    exists b', rfold (import_image atof) (map (print_image fprint) es) b = Ok b' /\ wf_func b' /\ built b' /\ f_exp b' = None /\ f_group b' = f_group b /\
      (forall c x, In (c, x) es -> fimg b' c = rnd x) /\
      (forall c, valid_comb (fsizes b) c -> ~ In c (map fst es) -> fimg b' c = fimg b c).
  Proof.
    induction es as [|[c x] es IH]; intros b W B X ND H.
    - exists b. cbn [map rfold]. repeat (split; auto). intros c x [].
    - cbn [map rfold]. destruct (H c x (or_introl eq_refl)) as (Vc & Nx & Fc).
      assert (E : import_image atof b (print_image fprint (c, x)) = m_set b c (rnd x)).
      { unfold import_image, print_image. cbn [fst snd].
        assert (A1 : jindex (JObj [("D"%string, JStr (fprint x)); ("v"%string, jarr (map (fun k => JStr (written k)) c))]) "v" = Ok (jarr (map (fun k => JStr (written k)) c))) by reflexivity.
        rewrite A1. cbn [rbind]. rewrite jiter_jarr, rmap_written by auto. cbn [rbind].
        assert (A2 : access (JObj [("D"%string, JStr (fprint x)); ("v"%string, jarr (map (fun k => JStr (written k)) c))]) "D" = Ok (JStr (fprint x))) by reflexivity.
        rewrite A2. cbn [rbind]. rewrite to_string_plain by auto. reflexivity. }
      rewrite E. destruct (m_set_spec b c (rnd x) W) as [[[Q|Q] _]|(_ & _ & b1 & Q & W1 & G1 & X1 & I1)].
      + exfalso. pose proof (rnd_nonneg x Nx) as Z. congruence.
      + contradiction.
      + rewrite Q. cbn [rbind]. inversion ND as [|? ? NI ND']; subst.
        assert (S1 : fsizes b1 = fsizes b) by (unfold fsizes; rewrite G1; auto).
        destruct (IH b1) as (b' & E' & W' & B' & X' & G' & I' & O'); auto.
        * eapply b_set; eauto.
        * congruence.
        * intros d y J. rewrite S1. apply H. right; auto.
        * exists b'. split; auto. split; auto. split; auto. split; auto. split. congruence. split.
          -- intros d y [[= <- <-]|J].
             ++ rewrite O'; auto. rewrite I1 by auto. assert (R : list_eqb c c = true) by (apply list_eqb_eq; auto). rewrite R. auto. rewrite S1; auto.
             ++ apply I'; auto.
          -- intros d Vd Nd. simpl in Nd. rewrite O'. rewrite I1 by auto. destruct (list_eqb c d) eqn:R; auto. apply list_eqb_eq in R. tauto. rewrite S1; auto. tauto.
  Qed.

  Lemma valid_fits (f : func N) c : good f -> incl (f_vars f) V -> valid_comb (fsizes f) c -> Forall fits_int c.
  Proof.
    intros _ I Vc. unfold fsizes, sizes_of in Vc. change (g_soup (f_group f)) with (f_vars f) in Vc. revert c Vc. induction (f_vars f) as [|v vs IH]; intros c Vc; inversion Vc; subst; constructor.
    - rewrite Forall_forall in VW. destruct (VW v (I v (or_introl eq_refl))) as (_ & _ & _ & Q). unfold fits_int in *. lia.
    - apply IH; auto. intros u J. apply I. right; auto.
  Qed.

  (** what is read for a factor, before the exponential *)
  Lemma import_factor_ok (f : func N) fields j : good f -> incl (f_vars f) V -> (length (f_vars f) = 1 \/ length (f_vars f) = 2) ->
    print_potential fprint f = Ok fields -> try_access j "Variables" = try_access (JObj fields) "Variables" ->
    try_access j "Distr_val" = try_access (JObj fields) "Distr_val" -> try_access j "Correlation" = None ->
    exists b, import_factor atof e vars j = Ok b /\ wf_func b /\ built b /\ f_exp b = None /\ f_group b = mkGroup (map rho (f_vars f)) (map rho (f_vars f)) /\
      forall c, valid_comb (fsizes f) c -> fimg b c = rnd (fimg f c).
  Proof.
    intros G I L PP A1 A2 A3. pose proof G as ((W & WG) & MD & NN). unfold print_potential in PP.
    destruct (f_each_nonnull_spec OK false f W) as (es & E & NDe & Q1 & Q2). rewrite E in PP. cbn [rbind] in PP. injection PP as <-.
    assert (B1 : try_access (JObj [("Variables"%string, print_group (f_vars f)); ("Distr_val"%string, jarr (map (print_image fprint) es))]) "Variables" = Some (print_group (f_vars f))) by reflexivity.
    assert (B2 : try_access (JObj [("Variables"%string, print_group (f_vars f)); ("Distr_val"%string, jarr (map (print_image fprint) es))]) "Distr_val" = Some (jarr (map (print_image fprint) es))) by reflexivity.
    rewrite B1 in A1. rewrite B2 in A2. clear B1 B2.
    unfold import_factor, access. rewrite A1. cbn [rbind].
    assert (K : NoDup (map vkey (f_vars f))) by apply WG.
    rewrite import_group_ok by auto. cbn [rbind]. rewrite A3. cbn [g_soup].
    set (GR := mkGroup (map rho (f_vars f)) (map rho (f_vars f))).
    assert (NE : map rho (f_vars f) <> []) by (destruct (f_vars f); simpl in L; try lia; discriminate).
    assert (CT : group_ctor (map rho (f_vars f)) = Ok GR). { apply group_ctor_ok. split; auto. split; auto. rewrite rho_keys; auto. }
    rewrite CT. cbn [rbind]. rewrite A2. cbn [rbind]. rewrite jiter_jarr.
    assert (MV : Forall made (map rho (f_vars f))).
    { apply Forall_forall. intros w J. apply in_map_iff in J as (v & <- & J). pose proof (fresh_made next V VW) as FM. rewrite Forall_forall in FM. apply FM. apply (rho_spec v). apply I; auto. }
    assert (BG : built_group GR). { eapply bg_ctor; eauto. }
    assert (SZ : sizes_of GR = fsizes f). { unfold sizes_of, fsizes. cbn [g_soup GR]. rewrite rho_sizes by auto. reflexivity. }
    assert (W0 : wf_func (func_ctor (N:=N) GR)). { apply func_ctor_wf; auto. apply made_sizes; auto. }
    destruct (import_images_ok es (func_ctor GR) W0) as (b & Eb & Wb & Bb & Xb & Gb & Ib & Ob).
    - apply b_ctor; auto.
    - reflexivity.
    - exact NDe.
    - intros c x J. destruct (Q1 c x J) as [Vc ->]. change (fsizes (func_ctor GR)) with (sizes_of GR). rewrite SZ. split; auto. cbn [tr]. split. apply NN; auto. eapply valid_fits; eauto.
    - exists b. split; auto. split; auto. split; auto. split; auto. split; auto. intros c Vc.
      destruct (in_dec (list_eq_dec Nat.eq_dec) c (map fst es)) as [J|J].
      + apply in_map_iff in J as ([c' x] & Ec & J). cbn [fst] in Ec. subst c'. rewrite (Ib _ _ J). f_equal. destruct (Q1 _ _ J) as [_ ->]. reflexivity.
      + rewrite Ob; auto.
        * rewrite func_ctor_img. destruct (neqb (fimg f c) n0) eqn:Z.
          -- apply (ok_eqb N OK) in Z. rewrite Z. auto.
          -- exfalso. apply J. apply (neqb_false OK) in Z. pose proof (in_map fst _ _ (Q2 c Vc Z)) as Q. exact Q.
        * change (fsizes (func_ctor GR)) with (sizes_of GR). rewrite SZ. auto.
  Qed.

  (** the factor read for a given one *)
  Definition blue (f : func N) : func N :=
    match (let* fields := print_potential fprint f in import_factor atof e vars (JObj fields)) with
    | Ok b => match f_exp f with None => b | Some w => match exp_ctor b (rnd w) with Ok b' => b' | _ => b end end
    | _ => f
    end.
  Lemma print_potential_ok (f : func N) : good f -> exists imgs, print_potential fprint f = Ok [("Variables"%string, print_group (f_vars f)); ("Distr_val"%string, imgs)].
  Proof.
    intros ((W & _) & _). destruct (f_each_nonnull_spec OK false f W) as (es & E & _). unfold print_potential. rewrite E. cbn [rbind]. eauto.
  Qed.
  Lemma import_factor_ext j j' : try_access j "Variables" = try_access j' "Variables" -> try_access j "Distr_val" = try_access j' "Distr_val" ->
    try_access j "Correlation" = try_access j' "Correlation" -> import_factor atof e vars j = import_factor (N:=N) atof e vars j'.
  Proof. intros A1 A2 A3. unfold import_factor, access. rewrite A1, A2, A3. reflexivity. Qed.

  Section One.
    Variable f : func N.
    Hypothesis G : good f.
    Hypothesis I : incl (f_vars f) V.
    Hypothesis L : length (f_vars f) = 1 \/ length (f_vars f) = 2.

    Lemma blue_shape : exists imgs b, print_potential fprint f = Ok [("Variables"%string, print_group (f_vars f)); ("Distr_val"%string, imgs)] /\
      (forall x, import_factor atof e vars (JObj ([("Variables"%string, print_group (f_vars f)); ("Distr_val"%string, imgs)] ++ x)) =
                 match try_access (JObj x) "Correlation" with None => Ok b | Some _ => import_factor atof e vars (JObj ([("Variables"%string, print_group (f_vars f)); ("Distr_val"%string, imgs)] ++ x)) end) /\
      match f_exp f with None => blue f = b | Some w => exp_ctor b (rnd w) = Ok (blue f) end /\
      built (blue f) /\ f_group (blue f) = mkGroup (map rho (f_vars f)) (map rho (f_vars f)) /\ f_exp (blue f) = option_map rnd (f_exp f) /\
      forall c, valid_comb (fsizes f) c -> fimg (blue f) c = rnd (fimg f c).
    Proof.
      destruct (print_potential_ok f G) as (imgs & E). pose proof (import_factor_ok f _ (JObj [("Variables"%string, print_group (f_vars f)); ("Distr_val"%string, imgs)]) G I L E eq_refl eq_refl eq_refl) as (b & Eb & W & B & X & GR & IM).
      exists imgs, b. split; auto. split.
      { intros x. destruct (try_access (JObj x) "Correlation") eqn:TC; auto. rewrite <- Eb. apply import_factor_ext; auto. }
      assert (Q : blue f = match f_exp f with None => b | Some w => match exp_ctor b (rnd w) with Ok b' => b' | _ => b end end).
      { unfold blue. rewrite E. cbn [rbind]. rewrite Eb. reflexivity. }
      rewrite Q. destruct (f_exp f) as [w|].
      - destruct (exp_ctor_ok b (rnd w) W) as (b' & E' & W' & G' & X' & I'). rewrite E'. split; auto. split. { eapply b_exp; eauto. }
        split. congruence. split; auto. intros c Vc. rewrite I'. auto.
        unfold fsizes. rewrite GR. unfold sizes_of. cbn [g_soup]. rewrite rho_sizes; auto.
      - split; auto.
    Qed.
    Lemma print_const_ok : exists j, print_const fprint f = Ok j /\ import_potential atof e vars j = Ok (blue f, IConst).
    Proof.
      destruct blue_shape as (imgs & b & E & A & X & _). unfold print_const, print_exp. destruct (f_exp f) as [w|] eqn:W; rewrite E; cbn [rbind].
      - unfold exp_get_weight. rewrite W. cbn [rbind]. eexists. split; [reflexivity|]. unfold import_potential. rewrite <- app_assoc, A.
        assert (T1 : forall x y, try_access (JObj ([("weight"%string, x)] ++ [("tunability"%string, y)])) "Correlation" = None) by reflexivity. rewrite T1. cbn [rbind].
        assert (T2 : forall a i x y, try_access (JObj ([("Variables"%string, a); ("Distr_val"%string, i)] ++ [("weight"%string, x)] ++ [("tunability"%string, y)])) "weight" = Some x) by reflexivity.
        rewrite T2. rewrite to_string_plain by auto. cbn [rbind]. fold (rnd w). rewrite X. cbn [rbind].
        assert (T3 : forall a i x y, try_access (JObj ([("Variables"%string, a); ("Distr_val"%string, i)] ++ [("weight"%string, x)] ++ [("tunability"%string, y)])) "tunability" = Some y) by reflexivity.
        rewrite T3. reflexivity.
      - eexists. split; [reflexivity|]. unfold import_potential. pose proof (A []) as A0. rewrite app_nil_r in A0. rewrite A0.
        assert (T1 : try_access (JObj []) "Correlation" = None) by reflexivity. rewrite T1. cbn [rbind].
        assert (T2 : forall a i, try_access (JObj [("Variables"%string, a); ("Distr_val"%string, i)]) "weight" = None) by reflexivity. rewrite T2. rewrite X. reflexivity.
    Qed.
    Lemma print_tunable_ok share w : f_exp f = Some w -> (forall vs, share = Some vs -> incl vs V /\ (length vs = 1 \/ length vs = 2) /\ NoDup (map vkey vs)) ->
      exists j, print_tunable fprint share f = Ok j /\
        import_potential atof e vars j = Ok (blue f, match share with None => ITun | Some vs => IShare (map rho vs) end).
    Proof.
      intros W SH. destruct blue_shape as (imgs & b & E & A & X & _). rewrite W in X. unfold print_tunable, print_exp. rewrite E. cbn [rbind]. unfold exp_get_weight. rewrite W. cbn [rbind].
      eexists. split; [reflexivity|]. unfold import_potential. rewrite <- !app_assoc, A.
      assert (T1 : try_access (JObj ([("weight"%string, JStr (fprint w))] ++ [("tunability"%string, JStr "Y")] ++ match share with None => [] | Some vs => [("Share"%string, print_group vs)] end)) "Correlation" = None) by (destruct share; reflexivity).
      rewrite T1. cbn [rbind].
      match goal with |- context [try_access ?x "weight"] => set (j := x) end.
      assert (T2 : try_access j "weight" = Some (JStr (fprint w))) by reflexivity. rewrite T2. rewrite to_string_plain by auto. cbn [rbind]. fold (rnd w). rewrite X. cbn [rbind].
      assert (T3 : try_access j "tunability" = Some (JStr "Y")) by reflexivity. rewrite T3.
      assert (T4 : to_string (JStr "Y") = Ok "Y"%string) by reflexivity. rewrite T4. cbn [rbind]. rewrite String.eqb_refl.
      destruct share as [vs|].
      - assert (T5 : try_access j "Share" = Some (print_group vs)) by reflexivity. rewrite T5. destruct (SH vs eq_refl) as (S1 & S2 & S3).
        rewrite import_group_ok by auto. reflexivity.
      - assert (T5 : try_access j "Share" = None) by reflexivity. rewrite T5. reflexivity.
    Qed.
  End One.
End Factors.
