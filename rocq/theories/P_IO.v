(** Properties C43, C44: import of training sets and of the images of a factor from
    text files.

    Vocabulary: [describes text rows] (TextSpec.v) says that a text has one line for
    each row, made of the words of the row separated by blanks; [written n] is the
    decimal notation of [n]. *)
From Coq Require Import Ascii String List Arith ZArith Bool Lia QArith Qcanon.
From Verif Require Import Res Num Categoric Combs Func FuncProofs GroupProofs FactorProofs FactorApi Graph Train TextSpec IO TextProofs P_Categoric P_Factor.
Import ListNotations.
Open Scope nat_scope.

Lemma ofold_app_out {S A} (g : A -> S -> out S unit) l l' s :
  ofold g (l ++ l') s = match ofold g l s with Ret _ s' => ofold g l' s' | Thr s' => Thr s' | Undef => Undef | NotNum => NotNum | NoStop => NoStop end.
Proof. revert s. induction l as [|a l IH]; intros s; simpl; auto. destruct (g a s); simpl; auto. Qed.

(** {1 C43} *)
Section C43.
  Context {N : num}.
  Variable atof : string -> N.

  (** a row of numbers *)
  Definition numbers (row : list nat) : list string := map written row.

  Lemma train_lines_zeros ls : forall e acc cs, train_lines atof ls e acc = Ok cs -> exists more, cs = acc ++ more /\ Forall (fun c => forall v, In v c -> v = 0) more.
  Proof.
    induction ls as [|l r IH]; intros e acc cs H; simpl in H. injection H as <-. exists []. rewrite app_nil_r. auto.
    destruct (parse_combination_image atof l) as [p| | | |]; try discriminate. cbn [rbind] in H.
    destruct (negb (e =? 0) && negb (length (fst p) =? e)); [discriminate|]. apply IH in H as (more & -> & F). exists (repeat 0 (length (fst p)) :: more).
    rewrite <- app_assoc. split; auto. constructor; auto. intros v J. apply repeat_spec in J. auto.
  Qed.

  (** Whatever the file, when [import_train_set] returns, every value of every
      combination of the training set is 0. *)
  Theorem C43_only_zeros : forall text combs, import_train_set atof text = Ok combs ->
    forall c v, In c combs -> In v c -> v = 0.
  Proof.
    intros text combs H c v Hc Hv. unfold import_train_set in H. destruct (train_lines atof (lines text) 0 []) as [cs| | | |] eqn:E; try discriminate. cbn [rbind] in H.
    apply train_lines_zeros in E as (more & -> & F). assert (combs = more).
    { unfold make_train_set in H. simpl in H. destruct more; [discriminate|]. destruct (existsb _ _); congruence. }
    subst. rewrite Forall_forall in F. eapply F; eauto.
  Qed.

  Lemma train_lines_rows ls : forall rows m e acc, 1 <= m -> (e = 0 \/ e = m) -> Forall2 spelled ls (map numbers rows) -> Forall (Forall fits_int) rows ->
    Forall (fun r => length r = S m) rows -> train_lines atof ls e acc = Ok (acc ++ map (fun _ => repeat 0 m) rows).
  Proof.
    induction ls as [|l ls IH]; intros rows m e acc M He F FI FL; destruct rows as [|r rows]; simpl in F; inversion F as [|? ? ? ? Fh Ft]; subst; simpl. rewrite app_nil_r; auto.
    inversion FI as [|? ? FIh FIt]; inversion FL as [|? ? FLh FLt]; subst. destruct (exists_last (l := r)) as (r0 & x & ->). intros ->. simpl in *; lia.
    unfold numbers in Fh. rewrite map_app in Fh. simpl in Fh. apply Forall_app in FIh as [Fr Fx]. rewrite (parse_row atof l r0 (written x)); auto. cbn [rbind fst].
    rewrite app_length in FLh. simpl in FLh. replace (length r0) with m by lia.
    assert (C : negb (e =? 0) && negb (m =? e) = false). { destruct He as [->| ->]. reflexivity. rewrite Nat.eqb_refl. apply andb_false_r. }
    rewrite C. rewrite (IH rows m m); auto. rewrite <- app_assoc. reflexivity.
  Qed.

  (** What is returned for a file with [m + 1] numbers in each line: as many
      combinations as the lines, each made of [m] zeros. *)
  Theorem C43_zeros : forall text rows m, 1 <= m -> describes text (map numbers rows) ->
    Forall (Forall fits_int) rows -> Forall (fun r => length r = S m) rows ->
    import_train_set atof text = Ok (map (fun _ => repeat 0 m) rows).
  Proof.
    intros text rows m M D FI FL. pose proof (describes_lines _ _ D) as F. unfold import_train_set. rewrite (train_lines_rows _ rows m 0 []); auto. cbn [rbind app].
    unfold make_train_set. destruct rows as [|r rows]. { destruct D as (ls & _ & NE & G). inversion G. congruence. }
    simpl map at 1. cbv iota. match goal with |- (if ?b then _ else _) = _ => assert (X : b = false) end; [|rewrite X; auto].
    apply not_true_is_false. intros Y. apply existsb_exists in Y as (d & J & Y). apply in_map_iff in J as (r' & <- & _).
    rewrite !repeat_length, Nat.eqb_refl in Y. destruct m; [lia|]. discriminate.
  Qed.

  (** C43, refuted: no file describing combinations is read as these combinations. *)
  Theorem C43_import_refuted : forall text combs, describes text (map numbers combs) -> Forall (Forall fits_int) combs ->
    import_train_set atof text <> Ok combs.
  Proof.
    intros text combs D FI H. pose proof (describes_lines _ _ D) as F. unfold import_train_set in H.
    destruct (lines text) as [|l ls] eqn:EL. { exfalso. apply (lines_from_ne text ""%string). exact EL. }
    destruct combs as [|r rows]; simpl in F; inversion F as [|? ? ? ? Fh Ft]; subst. inversion FI as [|? ? FIh FIt]; subst. simpl in H.
    destruct r as [|x r].
    - simpl in Fh. apply tokens_ok in Fh. rewrite parse_empty in H; auto. discriminate.
    - destruct (exists_last (l := x :: r)) as (r0 & y & Er). discriminate. rewrite Er in *. clear Er.
      unfold numbers in Fh. rewrite map_app in Fh. simpl in Fh. apply Forall_app in FIh as [Fr Fx]. rewrite (parse_row atof l r0 (written y)) in H; auto. cbn [rbind fst negb andb Nat.eqb] in H.
      destruct (train_lines atof ls (length r0) [repeat 0 (length r0)]) as [cs| | | |] eqn:E; try discriminate. cbn [rbind] in H.
      apply train_lines_zeros in E as (more & -> & _). unfold make_train_set in H. cbn [app] in H.
      match goal with [ H : (if ?b then _ else _) = _ |- _ ] => destruct b; [discriminate|] end. injection H as H _. apply (f_equal (@length nat)) in H. rewrite repeat_length, app_length in H. simpl in H. lia.
  Qed.

  (** a file with one number in each line: throws *)
  Theorem C43_single_column : forall text rows, describes text (map numbers rows) ->
    Forall (Forall fits_int) rows -> Forall (fun r => length r = 1) rows -> import_train_set atof text = Throw.
  Proof.
    intros text rows D FI FL. pose proof (describes_lines _ _ D) as F. unfold import_train_set.
    assert (G : forall ls rows acc, Forall2 spelled ls (map numbers rows) -> Forall (Forall fits_int) rows -> Forall (fun r => length r = 1) rows ->
      train_lines atof ls 0 acc = Ok (acc ++ map (fun _ => []) rows)).
    { clear. induction ls as [|l ls IH]; intros rows acc F FI FL; destruct rows as [|r rows]; simpl in F; inversion F as [|? ? ? ? Fh Ft]; subst; simpl. rewrite app_nil_r; auto.
      inversion FI as [|? ? FIh FIt]; inversion FL as [|? ? FLh FLt]; subst. destruct r as [|x [|y r]]; simpl in FLh; try discriminate. rewrite (parse_row atof l [] (written x)); auto. cbn [rbind fst length negb andb Nat.eqb].
      rewrite (IH rows); auto. rewrite <- app_assoc. reflexivity. }
    rewrite (G _ rows []); auto. destruct rows as [|r rows]. { destruct D as (ls & _ & NE & K). inversion K. congruence. } reflexivity.
  Qed.

  (** lines with different numbers of values: throws, as documented *)
  Theorem C43_different_sizes : forall text rows r0 before r after, describes text (map numbers rows) -> Forall (Forall fits_int) rows ->
    rows = before ++ r :: after -> hd_error before = Some r0 -> 2 <= length r0 -> Forall (fun x => length x = length r0) before ->
    r <> [] -> length r <> length r0 -> import_train_set atof text = Throw.
  Proof.
    intros text rows r0 before r after D FI -> H0 L2 FB NE NL. pose proof (describes_lines _ _ D) as F. unfold import_train_set. rewrite map_app in F.
    apply Forall2_app_inv_r in F as (l1 & l2 & F1 & F2 & ->). apply Forall_app in FI as [FI1 FI2].
    assert (NEb : before <> []) by (intros ->; discriminate). clear H0.
    assert (G : forall ls before e acc, (before = [] -> e <> 0) -> (e = 0 \/ S e = length r0) -> Forall2 spelled ls (map numbers before) -> Forall (Forall fits_int) before -> Forall (fun x => length x = length r0) before ->
      train_lines atof (ls ++ l2) e acc = Throw).
    { clear - L2 F2 FI2 NE NL. induction ls as [|l ls IH]; intros before e acc HB He F FI FB; destruct before as [|b before]; simpl in F; inversion F as [|? ? ? ? Fh Ft]; subst; simpl.
      - specialize (HB eq_refl). destruct He as [|He]; [congruence|]. inversion F2 as [|l x ls xs S1 S2]; subst. simpl.
        destruct (exists_last (l := r)) as (r1 & y & ->); auto. inversion FI2 as [|? ? FIh FIt]; subst. unfold numbers in S1. rewrite map_app in S1. simpl in S1. apply Forall_app in FIh as [Fr Fx].
        rewrite (parse_row atof l r1 (written y)); auto. cbn [rbind fst]. rewrite app_length in NL. simpl in NL.
        destruct e as [|e]; [congruence|]. destruct (Nat.eqb_spec (length r1) (S e)); [lia|]. reflexivity.
      - inversion FI as [|? ? FIh FIt]; inversion FB as [|? ? FLh FLt]; subst. destruct (exists_last (l := b)) as (r1 & y & ->). intros ->. simpl in *. lia.
        unfold numbers in Fh. rewrite map_app in Fh. simpl in Fh. apply Forall_app in FIh as [Fr Fx]. rewrite (parse_row atof l r1 (written y)); auto. cbn [rbind fst].
        rewrite app_length in FLh. simpl in FLh. destruct (negb (e =? 0) && negb (length r1 =? e)); auto. apply (IH before); auto. intros _. lia. right. lia. }
    rewrite (G l1 before 0 []); auto.
  Qed.

  (** The file ends with a newline: undefined behaviour, after any lines with the
      same number (at least two) of values. *)
  Theorem C43_final_newline : forall text rows m, 1 <= m -> describes text (map numbers rows) ->
    Forall (Forall fits_int) rows -> Forall (fun r => length r = S m) rows ->
    import_train_set atof (text ++ end_of_line) = UB.
  Proof.
    intros text rows m M D FI FL. pose proof (describes_lines _ _ D) as F. unfold import_train_set. rewrite lines_newline.
    assert (G : forall ls rows e acc, (e = 0 \/ e = m) -> Forall2 spelled ls (map numbers rows) -> Forall (Forall fits_int) rows -> Forall (fun r => length r = S m) rows ->
      train_lines atof (ls ++ [""%string]) e acc = UB).
    { clear - M. induction ls as [|l ls IH]; intros rows e acc He F FI FL; destruct rows as [|r rows]; simpl in F; inversion F as [|? ? ? ? Fh Ft]; subst. reflexivity. simpl.
      inversion FI as [|? ? FIh FIt]; inversion FL as [|? ? FLh FLt]; subst. destruct (exists_last (l := r)) as (r0 & x & ->). intros ->. simpl in *; lia.
      unfold numbers in Fh. rewrite map_app in Fh. simpl in Fh. apply Forall_app in FIh as [Fr Fx]. rewrite (parse_row atof l r0 (written x)); auto. cbn [rbind fst].
      rewrite app_length in FLh. simpl in FLh. replace (length r0) with m by lia.
      assert (C : negb (e =? 0) && negb (m =? e) = false). { destruct He as [->| ->]. reflexivity. rewrite Nat.eqb_refl. apply andb_false_r. }
      rewrite C. apply (IH rows); auto. }
    rewrite (G _ rows 0 []); auto.
  Qed.
End C43.
Print Assumptions C43_only_zeros.
Print Assumptions C43_zeros.
Print Assumptions C43_import_refuted.
Print Assumptions C43_single_column.
Print Assumptions C43_different_sizes.
Print Assumptions C43_final_newline.

(** {1 C44} *)
Section C44.
  Context {N : num} (OK : num_ok N).
  Variable atof : string -> N.

  (** a row: a combination and the word of the image *)
  Definition row_words (r : list nat * string) : list string := map written (fst r) ++ [snd r].
  (** a row that is accepted by [set] *)
  Definition accepted (f : func N) (r : list nat * string) : Prop :=
    valid_comb (map vsize (f_vars f)) (fst r) /\ (n0 <= atof (snd r))%num.
  (** the image of a combination after some rows: that of its last row, or 0 *)
  Definition last_image (rows : list (list nat * string)) (c : list nat) : N :=
    fold_left (fun x r => if list_eqb (fst r) c then atof (snd r) else x) rows n0.
  (** [f'] has the variables of [f] and the images given by the rows *)
  Definition filled (f : func N) (rows : list (list nat * string)) (f' : func N) : Prop :=
    f_vars f' = f_vars f /\ f_exp f' = None /\ forall c, valid_comb (map vsize (f_vars f)) c -> f_find f' c = Ok (last_image rows c).

  Definition import_line (line : string) (f : func N) : out (func N) unit :=
    do (p, f) <- lift (parse_combination_image atof line) f ;;
    if length (fst p) =? length (f_vars f) then set_image f (fst p) (snd p) else Thr f.

  (** the state after some accepted rows *)
  Record mid (f : func N) (rows : list (list nat * string)) (f' : func N) : Prop := {
    mi_wf : wf_func f'; mi_group : f_group f' = f_group f; mi_exp : f_exp f' = None;
    mi_img : forall c, valid_comb (fsizes f) c -> fimg f' c = last_image rows c }.
  Lemma mid_filled f rows f' : mid f rows f' -> filled f rows f'.
  Proof.
    intros [W G E I]. split; [unfold f_vars; rewrite G; auto|split; auto]. intros c V. rewrite f_find_ok; auto. f_equal. apply I; auto. unfold fsizes. rewrite G. auto.
  Qed.
  Lemma import_rows f ls rows : forall before f', mid f before f' -> Forall2 spelled ls (map row_words rows) -> Forall (Forall fits_int) (map fst rows) -> Forall (accepted f) rows ->
    exists f'', ofold import_line ls f' = Ret tt f'' /\ mid f (before ++ rows) f''.
  Proof.
    revert rows. induction ls as [|l ls IH]; intros rows before f' M F FI FA; destruct rows as [|r rows]; simpl in F; inversion F as [|? ? ? ? Fh Ft]; subst.
    exists f'. rewrite app_nil_r. auto. inversion FI as [|? ? FIh FIt]; inversion FA as [|? ? FAh FAt]; subst. destruct r as [comb img]. cbn [fst snd] in *. simpl. unfold import_line at 1.
    rewrite (parse_row atof l comb img); auto. cbn [lift obind fst snd]. destruct M as [W G E I]. destruct FAh as [V P]. cbn [fst snd] in *.
    assert (L : length comb = length (f_vars f')). { apply valid_length in V. rewrite map_length in V. unfold f_vars in *. rewrite G. auto. }
    rewrite L, Nat.eqb_refl. unfold set_image.
    assert (V' : valid_comb (fsizes f') comb). { unfold fsizes. rewrite G. exact V. }
    destruct (m_set_spec f' comb (atof img) W) as [[X _]|(_ & _ & f1 & Q & W1 & G1 & E1 & I1)].
    { exfalso. destruct X as [X|X]; [|auto]. rewrite P in X. discriminate. }
    rewrite Q. cbn [obind]. destruct (IH rows (before ++ [(comb, img)]) f1) as (f2 & O2 & M2); auto.
    { split; auto; try congruence. intros c Vc. rewrite I1. 2: unfold fsizes in *; rewrite G; auto. unfold last_image. rewrite fold_left_app. cbn [fold_left fst snd].
      rewrite I; auto. }
    exists f2. split; auto. rewrite <- app_assoc in M2. exact M2.
  Qed.
  Lemma mid_start f : built f -> f_exp f = None -> mid f [] (f_clear f).
  Proof. intros B E. pose proof (built_solid f B) as ((W & WG) & Hm). split; auto. apply f_clear_wf; auto. Qed.
  Lemma import_values_eq f text : import_values atof f text = ofold import_line (lines text) (f_clear f).
  Proof. reflexivity. Qed.

  (** C44, for texts without blank lines and without a final newline: when all the
      rows are accepted, the factor gets exactly the described images, and 0
      elsewhere; otherwise the call throws at the first row that is not, and the
      factor is left with the images of the rows before. *)
  Theorem C44_import_partial : forall (f : func N) text rows, built f -> f_exp f = None ->
    describes text (map row_words rows) -> Forall (Forall fits_int) (map fst rows) ->
    (Forall (accepted f) rows -> exists f', import_values atof f text = Ret tt f' /\ filled f rows f') /\
    (forall before r after, rows = before ++ r :: after -> Forall (accepted f) before -> ~ accepted f r ->
       exists f', import_values atof f text = Thr f' /\ filled f before f').
  Proof.
    intros f text rows B E D FI. pose proof (describes_lines _ _ D) as F. rewrite import_values_eq. split.
    - intros FA. destruct (import_rows f _ _ [] (f_clear f) (mid_start f B E) F FI FA) as (f' & O & M). exists f'. split; auto. apply mid_filled; auto.
    - intros before r after -> FA NA. rewrite map_app in F, FI. apply Forall2_app_inv_r in F as (l1 & l2 & F1 & F2 & ->). apply Forall_app in FI as [FI1 FI2].
      destruct (import_rows f _ _ [] (f_clear f) (mid_start f B E) F1 FI1 FA) as (f' & O & M). cbn [app] in M.
      rewrite ofold_app_out, O. inversion F2 as [|l x ls xs S1 S2]; subst. inversion FI2 as [|? ? FIh FIt]; subst. destruct r as [comb img]. exists f'. split; [|apply mid_filled; auto].
      cbn [ofold]. unfold import_line at 1. rewrite (parse_row atof l comb img); auto. cbn [lift obind fst snd].
      destruct (Nat.eqb_spec (length comb) (length (f_vars f'))); auto. unfold set_image.
      destruct (m_set_spec f' comb (atof img) (mi_wf _ _ _ M)) as [[_ Q]|(P & V & _)]. rewrite Q. auto.
      exfalso. apply NA. split; auto. cbn [fst]. unfold fsizes in V. rewrite (mi_group _ _ _ M) in V. exact V.
  Qed.

  (** a number written with a minus sign is not a valid index *)
  Lemma atoi_negative n : fits_int (S n) -> atoi ("-" ++ written (S n)) = Ok (- Z.of_nat (S n))%Z.
  Proof.
    intros L. unfold atoi. change ("-" ++ written (S n))%string with (String "-" (written (S n))). cbn [skip_spaces]. change (is_space "-") with false. cbv iota.
    change (Ascii.eqb "-" "-") with true. cbv iota. rewrite written_value. unfold fits_int in L.
    destruct (Z.leb_spec (- 2 ^ 31) (- Z.of_nat (S n))); [|lia]. destruct (Z.ltb_spec (- Z.of_nat (S n)) (2 ^ 31)); [|lia]. reflexivity.
  Qed.
  Lemma to_size_negative n m : fits_int (S n) -> fits_int m -> ~ (to_size (- Z.of_nat (S n)) < m).
  Proof.
    unfold fits_int, to_size. intros L M. assert (E : ((- Z.of_nat (S n)) mod 2 ^ 64 = 2 ^ 64 - Z.of_nat (S n))%Z).
    { symmetry. apply Z.mod_unique with (q := (-1)%Z). left. lia. lia. }
    rewrite E. intros C. apply inj_lt in C. rewrite Z2Nat.id in C; lia.
  Qed.
  Lemma sizes_app (a b : list string) x y : rmap (fun s => let* z := atoi s in Ok (to_size z)) a = Ok x -> rmap (fun s => let* z := atoi s in Ok (to_size z)) b = Ok y ->
    rmap (fun s => let* z := atoi s in Ok (to_size z)) (a ++ b) = Ok (x ++ y).
  Proof.
    revert x. induction a as [|s a IH]; intros x A B; simpl in *. injection A as <-. exact B. destruct (atoi s); try discriminate. simpl in *.
    destruct (rmap _ a) as [l| | | |]; try discriminate. simpl in A. injection A as <-. rewrite (IH l eq_refl B). reflexivity.
  Qed.
  Lemma parse_negative line xs n ys img : Forall fits_int xs -> fits_int (S n) -> Forall fits_int ys ->
    spelled line (map written xs ++ ("-" ++ written (S n))%string :: map written ys ++ [img]) ->
    parse_combination_image atof line = Ok (xs ++ to_size (- Z.of_nat (S n)) :: ys, atof img).
  Proof.
    intros X L Y Q. apply tokens_ok in Q. unfold parse_combination_image. rewrite Q.
    change (("-" ++ written (S n))%string :: map written ys ++ [img]) with ((("-" ++ written (S n))%string :: map written ys) ++ [img]). rewrite app_assoc.
    destruct ((map written xs ++ ("-" ++ written (S n))%string :: map written ys) ++ [img]) as [|t ts] eqn:E. { destruct (map written xs); discriminate E. }
    rewrite <- E. rewrite removelast_last, last_last.
    rewrite (sizes_app (map written xs) (("-" ++ written (S n))%string :: map written ys) xs (to_size (- Z.of_nat (S n)) :: ys)); auto using sizes_written.
    cbn [rmap]. rewrite atoi_negative; auto. cbn [rbind]. rewrite sizes_written; auto.
  Qed.
  Theorem C44_negative : forall (f : func N) text rows xs n ys img rest, built f -> f_exp f = None -> Forall fits_int (map vsize (f_vars f)) ->
    describes text (map row_words rows ++ (map written xs ++ ("-" ++ written (S n))%string :: map written ys ++ [img]) :: rest) ->
    Forall (Forall fits_int) (map fst rows) -> Forall fits_int xs -> fits_int (S n) -> Forall fits_int ys ->
    Forall (accepted f) rows ->
    exists f', import_values atof f text = Thr f' /\ filled f rows f'.
  Proof.
    intros f text rows xs n ys img rest B E SZ D FI X L Y FA. pose proof (describes_lines _ _ D) as F. rewrite import_values_eq.
    apply Forall2_app_inv_r in F as (l1 & l2 & F1 & F2 & ->).
    destruct (import_rows f _ _ [] (f_clear f) (mid_start f B E) F1 FI FA) as (f' & O & M). cbn [app] in M.
    rewrite ofold_app_out, O. inversion F2 as [|l x ls xs' S1 S2]; subst. exists f'. split; [|apply mid_filled; auto].
    cbn [ofold]. unfold import_line at 1. rewrite (parse_negative l xs n ys img); auto. cbn [lift obind fst snd].
    match goal with |- context [if ?c then _ else _] => destruct c; auto end. unfold set_image.
    destruct (m_set_spec f' (xs ++ to_size (- Z.of_nat (S n)) :: ys) (atof img) (mi_wf _ _ _ M)) as [[_ Q]|(P & V & _)]. rewrite Q. auto.
    exfalso. unfold fsizes in V. rewrite (mi_group _ _ _ M) in V. fold (f_vars f) in V. unfold valid_comb in V. apply Forall2_app_inv_l in V as (z1 & z2 & V1 & V2 & EQ).
    inversion V2 as [|? m ? ? Vh Vt]; subst. apply (to_size_negative n m); auto.
    rewrite Forall_forall in SZ. apply SZ. change (map vsize (f_vars f)) with (sizes_of (f_group f)). rewrite EQ. apply in_or_app. simpl. auto.
  Qed.

  (** C44, refuted for every text that ends with a newline, and for every text with
      a blank line, whatever the factor: after the accepted rows, undefined behaviour. *)
  Theorem C44_blank_line_refuted : forall (f : func N) text rows, built f -> f_exp f = None ->
    describes text (map row_words rows) -> Forall (Forall fits_int) (map fst rows) -> Forall (accepted f) rows ->
    import_values atof f (text ++ end_of_line) = Undef /\
    forall spaces rest, blank spaces -> one_line spaces -> import_values atof f (text ++ end_of_line ++ spaces ++ end_of_line ++ rest) = Undef.
  Proof.
    intros f text rows B E D FI FA. pose proof (describes_lines _ _ D) as F. rewrite import_values_eq.
    destruct (import_rows f _ _ [] (f_clear f) (mid_start f B E) F FI FA) as (f' & O & M). split.
    - rewrite lines_newline, ofold_app_out, O. reflexivity.
    - intros spaces rest Bs Os. rewrite import_values_eq.
      assert (L : lines (text ++ end_of_line ++ spaces ++ end_of_line ++ rest) = lines text ++ spaces :: lines rest).
      { rewrite <- (lines_app spaces rest); auto. generalize (spaces ++ end_of_line ++ rest)%string. unfold lines. generalize ""%string at 1 2.
        clear. induction text as [|c t IH]; intros acc x. reflexivity. cbn [append lines_from]. destruct (Ascii.eqb c newline); rewrite IH; reflexivity. }
      rewrite L, ofold_app_out, O. cbn [ofold]. unfold import_line. rewrite parse_empty; auto. apply tokens_ok. constructor; auto.
  Qed.

  (** an empty file: undefined behaviour *)
  Theorem C44_empty_file : forall (f : func N), import_values atof f "" = Undef.
  Proof. reflexivity. Qed.
End C44.
Print Assumptions C44_import_partial.
Print Assumptions C44_blank_line_refuted.
Print Assumptions C44_empty_file.
Print Assumptions C44_negative.

(** {1 Examples} *)
Definition decimal (s : string) : QcNum := Q2Qc (digits_value 0 s # 1).
Definition three_rows : string := "0 1 7" ++ end_of_line ++ " 1  0 2" ++ end_of_line ++ "1 1 3 ".
Lemma three_rows_described : describes three_rows [["0"; "1"; "7"]; ["1"; "0"; "2"]; ["1"; "1"; "3"]]%string.
Proof.
  exists ["0 1 7"; " 1  0 2"; "1 1 3 "]%string. split; [reflexivity|]. split; [discriminate|].
  assert (B1 : blank " ") by (vm_compute; tauto). assert (B2 : blank "  ") by (vm_compute; tauto). assert (B0 : blank "") by exact Logic.I.
  assert (W : forall s, In s ["0"; "1"; "2"; "3"; "7"]%string -> word s).
  { intros s J. simpl in J. destruct J as [<-|[<-|[<-|[<-|[<-|[]]]]]]; (split; [discriminate|]); vm_compute; intuition discriminate. }
  assert (NE1 : " "%string <> ""%string) by discriminate. assert (NE2 : "  "%string <> ""%string) by discriminate.
  repeat constructor; try (vm_compute; discriminate).
  - apply (spelled_cons "" "0" " " "1 7"); auto. apply W; simpl; tauto. apply (spelled_cons "" "1" " " "7"); auto. apply W; simpl; tauto.
    apply (spelled_last "" "7" ""); auto. apply W; simpl; tauto.
  - apply (spelled_cons " " "1" "  " "0 2"); auto. apply W; simpl; tauto. apply (spelled_cons "" "0" " " "2"); auto. apply W; simpl; tauto.
    apply (spelled_last "" "2" ""); auto. apply W; simpl; tauto.
  - apply (spelled_cons "" "1" " " "1 3 "); auto. apply W; simpl; tauto. apply (spelled_cons "" "1" " " "3 "); auto. apply W; simpl; tauto.
    apply (spelled_last "" "3" " "); auto. apply W; simpl; tauto.
Qed.

(** C43: the file gives two columns of zeros *)
Example C43_example : import_train_set decimal three_rows = Ok [[0; 0]; [0; 0]; [0; 0]] /\ Forall (Forall fits_int) [[0; 1; 7]; [1; 0; 2]; [1; 1; 3]].
Proof. split. vm_compute. reflexivity. repeat constructor; vm_compute; reflexivity. Qed.
Example C43_example_described : describes three_rows (map numbers [[0; 1; 7]; [1; 0; 2]; [1; 1; 3]]).
Proof. exact three_rows_described. Qed.
Example C43_example_newline : import_train_set decimal (three_rows ++ end_of_line) = UB.
Proof. vm_compute. reflexivity. Qed.
Example C43_example_different : import_train_set decimal ("0 1 7" ++ end_of_line ++ "1 2") = Throw /\ import_train_set decimal ("5" ++ end_of_line ++ "2") = Throw.
Proof. split; vm_compute; reflexivity. Qed.

(** C44: the images of a factor of two binary variables *)
Definition ioA := mkVar 0 "A"%string 2.
Definition ioB := mkVar 1 "B"%string 2.
Definition io_factor : func QcNum := func_ctor (mkGroup [ioA; ioB] [ioA; ioB]).
Lemma io_factor_built : built io_factor /\ f_exp io_factor = None.
Proof.
  split; auto. constructor. apply (bg_ctor [ioA; ioB]); [|reflexivity]. constructor; [|constructor; [|constructor]]. exists 0, 2, "A"%string. reflexivity. exists 1, 2, "B"%string. reflexivity.
Qed.
Definition io_rows : list (list nat * string) := [([0; 1], "7"%string); ([1; 0], "2"%string); ([1; 1], "3"%string)].
Example C44_example_hypotheses : describes three_rows (map row_words io_rows) /\ Forall (Forall fits_int) (map fst io_rows) /\ Forall (accepted decimal io_factor) io_rows.
Proof.
  split; [exact three_rows_described|]. split. repeat constructor; vm_compute; reflexivity.
  repeat constructor; vm_compute; try reflexivity; auto.
Qed.
Example C44_example : match import_values decimal io_factor three_rows with
  | Ret _ f => (f_find f [0; 0], f_find f [0; 1], f_find f [1; 0], f_find f [1; 1]) = (Ok (Q2Qc 0), Ok (Q2Qc 7), Ok (Q2Qc 2), Ok (Q2Qc 3))
  | _ => False end.
Proof. vm_compute. reflexivity. Qed.
Example C44_example_newline : import_values decimal io_factor (three_rows ++ end_of_line) = Undef.
Proof. vm_compute. reflexivity. Qed.
(** a minus sign in the second row *)
Example C44_example_negative : describes ("0 1 7" ++ end_of_line ++ "-1 0 2") (map row_words [([0; 1], "7"%string)] ++ (map written [] ++ ("-" ++ written 1)%string :: map written [0] ++ ["2"%string]) :: []) /\
  Forall fits_int (map vsize (f_vars io_factor)) /\ Forall (accepted decimal io_factor) [([0; 1], "7"%string)].
Proof.
  splits.
  - exists ["0 1 7"; "-1 0 2"]%string. split; [reflexivity|]. split; [discriminate|].
    assert (B1 : blank " ") by (vm_compute; tauto). assert (B0 : blank "") by exact Logic.I.
    assert (W : forall s, In s ["0"; "1"; "2"; "-1"; "7"]%string -> word s).
    { intros s J. simpl in J. destruct J as [<-|[<-|[<-|[<-|[<-|[]]]]]]; (split; [discriminate|]); vm_compute; intuition discriminate. }
    assert (NE1 : " "%string <> ""%string) by discriminate.
    repeat constructor; try (vm_compute; discriminate).
    + apply (spelled_cons "" "0" " " "1 7"); auto. apply W; simpl; tauto. apply (spelled_cons "" "1" " " "7"); auto. apply W; simpl; tauto.
      apply (spelled_last "" "7" ""); auto. apply W; simpl; tauto.
    + apply (spelled_cons "" "-1" " " "0 2"); auto. apply W; simpl; tauto. apply (spelled_cons "" "0" " " "2"); auto. apply W; simpl; tauto.
      apply (spelled_last "" "2" ""); auto. apply W; simpl; tauto.
  - repeat constructor; vm_compute; reflexivity.
  - repeat constructor; vm_compute; try reflexivity; auto.
Qed.
(** the third row is out of range: throws, with the images of the two rows before *)
Example C44_example_throws : match import_values decimal io_factor ("0 1 7" ++ end_of_line ++ "1 0 2" ++ end_of_line ++ "1 2 3") with
  | Thr f => (f_find f [0; 0], f_find f [0; 1], f_find f [1; 0], f_find f [1; 1]) = (Ok (Q2Qc 0), Ok (Q2Qc 7), Ok (Q2Qc 2), Ok (Q2Qc 0))
  | _ => False end.
Proof. vm_compute. reflexivity. Qed.
