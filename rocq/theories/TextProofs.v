(** Lines, tokens and numbers of the texts that describe rows *)
From Coq Require Import Ascii String List Arith ZArith Bool Lia Decimal DecimalString DecimalNat.
From Verif Require Import Res Num Categoric Func Graph Train TextSpec IO.
Import ListNotations.
Open Scope nat_scope.

Lemma app_empty_r s : (s ++ "")%string = s.
Proof. induction s; simpl; congruence. Qed.
Lemma app_assoc_s a b c : ((a ++ b) ++ c)%string = (a ++ b ++ c)%string.
Proof. induction a; simpl; congruence. Qed.
Lemma all_app P a b : all_chars P (a ++ b) <-> all_chars P a /\ all_chars P b.
Proof. induction a; simpl; tauto. Qed.
Lemma all_imp (P Q : ascii -> Prop) s : (forall c, P c -> Q c) -> all_chars P s -> all_chars Q s.
Proof. intros I. induction s; simpl; auto. intros []; auto. Qed.

Lemma is_space_ok c : is_space c = true <-> space c.
Proof.
  unfold is_space, space. rewrite orb_true_iff, andb_true_iff, Nat.eqb_eq, !Nat.leb_le. simpl. generalize (nat_of_ascii c). intros n. lia.
Qed.
Lemma is_space_no c : is_space c = false <-> ~ space c.
Proof. rewrite <- is_space_ok. destruct (is_space c); split; congruence. Qed.

(** {1 Lines} *)
Lemma lines_acc text : forall acc, lines_from acc text = match lines_from "" text with [] => [] | l :: r => (acc ++ l)%string :: r end.
Proof.
  induction text as [|c r IH]; intros acc; simpl. rewrite app_empty_r; auto.
  destruct (Ascii.eqb c newline). rewrite app_empty_r; auto. rewrite (IH (acc ++ String c "")%string), (IH (String c "")). destruct (lines_from "" r); auto.
  rewrite app_assoc_s. reflexivity.
Qed.
Lemma lines_from_ne text : forall acc, lines_from acc text <> [].
Proof. induction text as [|c r IH]; intros acc; simpl. discriminate. destruct (Ascii.eqb c newline). discriminate. apply IH. Qed.
Lemma lines_line l : one_line l -> lines l = [l].
Proof.
  unfold lines, one_line. induction l as [|c r IH]; simpl; intros O; auto. destruct O as [O1 O2]. apply Ascii.eqb_neq in O1. fold newline in O1. rewrite O1. rewrite lines_acc, IH; auto.
Qed.
Lemma lines_app l text : one_line l -> lines (l ++ end_of_line ++ text) = l :: lines text.
Proof.
  unfold lines, one_line. induction l as [|c r IH]; intros O. reflexivity. destruct O as [O1 O2]. apply Ascii.eqb_neq in O1. fold newline in O1.
  cbn [append lines_from]. rewrite O1, lines_acc, IH; auto.
Qed.
Lemma lines_concat ls : ls <> [] -> (forall l, In l ls -> one_line l) -> lines (String.concat end_of_line ls) = ls.
Proof.
  induction ls as [|l r IH]; intros NE O. congruence. destruct r as [|l2 r]. simpl. apply lines_line. apply O; left; auto.
  change (String.concat end_of_line (l :: l2 :: r)) with (l ++ end_of_line ++ String.concat end_of_line (l2 :: r))%string.
  rewrite lines_app. f_equal. apply IH. discriminate. intros; apply O; right; auto. apply O; left; auto.
Qed.
Lemma lines_from_newline text : forall acc, lines_from acc (text ++ end_of_line) = lines_from acc text ++ [""%string].
Proof.
  induction text as [|c r IH]; intros acc. reflexivity. cbn [append lines_from]. destruct (Ascii.eqb c newline). rewrite IH. reflexivity. apply IH.
Qed.
Lemma lines_newline text : lines (text ++ end_of_line) = lines text ++ [""%string].
Proof.
  apply lines_from_newline.
Qed.
Lemma Forall2_In_l {A B} (P : A -> B -> Prop) l l' : Forall2 P l l' -> forall a, In a l -> exists b, P a b.
Proof. intros F. induction F; simpl; intros a []; subst; eauto. Qed.
Lemma describes_lines text rows : describes text rows -> Forall2 spelled (lines text) rows.
Proof.
  intros (ls & -> & NE & F). rewrite lines_concat; auto. clear -F. induction F; constructor; auto. tauto.
  intros l J. destruct (Forall2_In_l _ _ _ F l J) as (b & X). tauto.
Qed.

(** {1 Tokens} *)
Lemma tokens_blank b rest : blank b -> tokens_from "" (b ++ rest) = tokens_from "" rest.
Proof. induction b as [|c r IH]; simpl; auto. intros [S1 S2]. apply is_space_ok in S1. rewrite S1. auto. Qed.
Lemma tokens_word w rest : all_chars (fun c => ~ space c) w -> forall acc, tokens_from acc (w ++ rest) = tokens_from (acc ++ w) rest.
Proof.
  induction w as [|c r IH]; simpl; intros W acc. rewrite app_empty_r; auto. destruct W as [W1 W2]. apply is_space_no in W1. rewrite W1, IH; auto.
  rewrite app_assoc_s. reflexivity.
Qed.
Lemma tokens_ok line ws : spelled line ws -> tokens line = ws.
Proof.
  unfold tokens. intros Q. induction Q as [b B|b w b' B W B'|b w b' rest ws B W B' NE Q IH].
  - rewrite <- (app_empty_r b). rewrite tokens_blank; auto.
  - rewrite tokens_blank, tokens_word; auto. 2: apply W. simpl. destruct W as [W1 _]. destruct w as [|c r]; [congruence|].
    destruct b' as [|d s]; simpl; auto. destruct B' as [B1 B2]. apply is_space_ok in B1. rewrite B1. f_equal.
    rewrite <- (app_empty_r s), tokens_blank; auto.
  - rewrite tokens_blank, tokens_word; auto. 2: apply W. simpl. destruct W as [W1 _]. destruct w as [|c r]; [congruence|].
    destruct b' as [|d s]; [congruence|]. simpl. destruct B' as [B1 B2]. apply is_space_ok in B1. rewrite B1. f_equal. rewrite tokens_blank; auto.
Qed.

(** {1 Numbers} *)
Lemma tail_mul_ten n : Nat.tail_mul 10 n = 10 * n.
Proof. rewrite <- Nat.tail_mul_spec. auto. Qed.
Lemma digits_uint d : forall acc, digits_value (Z.of_nat acc) (NilEmpty.string_of_uint d) = Z.of_nat (Nat.of_uint_acc d acc).
Proof.
  induction d as [|d IH|d IH|d IH|d IH|d IH|d IH|d IH|d IH|d IH|d IH]; intros acc; auto;
    cbn [NilEmpty.string_of_uint digits_value]; match goal with |- context [digit ?c] => let x := eval vm_compute in (digit c) in change (digit c) with x end; cbv iota beta;
    cbn [Nat.of_uint_acc]; rewrite <- IH; f_equal; rewrite tail_mul_ten; lia.
Qed.
Lemma written_value n : digits_value 0 (written n) = Z.of_nat n.
Proof. unfold written. change 0%Z with (Z.of_nat 0). rewrite digits_uint. f_equal. apply (Unsigned.of_to n). Qed.
Lemma uint_chars d : all_chars (fun c => 48 <= nat_of_ascii c <= 57) (NilEmpty.string_of_uint d).
Proof. induction d; simpl; auto; split; auto; vm_compute; lia. Qed.
Lemma written_word n : word (written n).
Proof.
  unfold written. split.
  - intros E. assert (X : Nat.of_uint (Nat.to_uint n) = n) by apply Unsigned.of_to. destruct (Nat.to_uint n) eqn:D; try discriminate E.
    simpl in X. unfold Nat.of_uint in X. simpl in X. subst n. discriminate D.
  - eapply all_imp; [|apply uint_chars]. intros c. cbv beta. unfold space. generalize (nat_of_ascii c). simpl. intros k L F. lia.
Qed.
Lemma atoi_written n : (Z.of_nat n < 2 ^ 31)%Z -> atoi (written n) = Ok (Z.of_nat n).
Proof.
  intros L. pose proof (written_value n) as V. pose proof (written_word n) as [NE _]. pose proof (uint_chars (Nat.to_uint n)) as U. fold (written n) in U.
  unfold atoi. destruct (written n) as [|c r]; [congruence|]. destruct U as [U _].
  assert (NS : is_space c = false). { apply is_space_no. clear -U. revert U. unfold space. generalize (nat_of_ascii c). simpl. intros k L F. lia. }
  cbn [skip_spaces]. rewrite NS.
  assert (M : Ascii.eqb c "-"%char = false). { apply Ascii.eqb_neq. intros ->. revert U. vm_compute. lia. }
  assert (P : Ascii.eqb c "+"%char = false). { apply Ascii.eqb_neq. intros ->. revert U. vm_compute. lia. }
  rewrite M, P. fold (written n). rewrite V.
  assert (R : (Z.leb (- 2 ^ 31) (Z.of_nat n) && Z.ltb (Z.of_nat n) (2 ^ 31))%Z = true).
  { apply andb_true_iff. split. apply Z.leb_le. lia. apply Z.ltb_lt. auto. }
  rewrite R. auto.
Qed.
Lemma to_size_nat n : (Z.of_nat n < 2 ^ 31)%Z -> to_size (Z.of_nat n) = n.
Proof. intros L. unfold to_size. rewrite Z.mod_small. apply Nat2Z.id. lia. Qed.
Definition fits_int (n : nat) : Prop := (Z.of_nat n < 2 ^ 31)%Z.
Lemma sizes_written comb : Forall fits_int comb -> rmap (fun s => let* z := atoi s in Ok (to_size z)) (map written comb) = Ok comb.
Proof.
  induction 1 as [|n l L F IH]; simpl; auto. rewrite atoi_written; auto. cbn [rbind]. rewrite to_size_nat; auto. rewrite IH. auto.
Qed.

Section Parse.
  Context {N : num}.
  Variable atof : string -> N.
  Lemma parse_row line comb img : Forall fits_int comb -> spelled line (map written comb ++ [img]) -> parse_combination_image atof line = Ok (comb, atof img).
  Proof.
    intros F Q. apply tokens_ok in Q. unfold parse_combination_image. rewrite Q. destruct (map written comb ++ [img]) as [|t ts] eqn:E. destruct (map written comb); discriminate.
    rewrite <- E. rewrite removelast_last, sizes_written; auto. cbn [rbind]. rewrite last_last. auto.
  Qed.
  Lemma parse_empty line : tokens line = [] -> parse_combination_image atof line = UB.
  Proof. unfold parse_combination_image. intros ->. auto. Qed.
End Parse.
