(** The import of a tag is the import of a json value, and what is exported to xml is
    read as what is exported to json *)
From Coq Require Import Ascii String List Arith ZArith Bool Lia Permutation.
From Verif Require Import Res Num Categoric Combs Func FuncProofs FactorProofs Graph GibbsChain Belief BPRun Gradient Train IO TextSpec TextProofs Json JsonRead Xml.
Import ListNotations.
Open Scope nat_scope.

(** {1 The order of the multimaps} *)

(** the elements with the same key are visited in an order that, applied twice, is the
    order of the insertions: so are the order of the insertions, the opposite one, the
    first element and then the others in the opposite order *)
Definition orderly (place : list nat -> list nat) : Prop :=
  (forall l, Permutation (place l) l) /\
  forall n i j, nth_error (place (seq 0 n)) i = Some j -> nth_error (place (seq 0 n)) j = Some i.

Section Order.
  Variable place : list nat -> list nat.
  Hypothesis PP : forall l, Permutation (place l) l.
  Lemma nth_permute {A} (l : list A) i : nth_error (permute place l) i = match nth_error (place (seq 0 (length l))) i with Some j => nth_error l j | None => None end.
  Proof.
    unfold permute. assert (B : forall j, In j (place (seq 0 (length l))) -> j < length l). { intros j J. apply (Permutation_in _ (PP _)) in J. apply in_seq in J. lia. }
    revert i B. generalize (place (seq 0 (length l))) as r. induction r as [|j r IH]; intros i B. destruct i; auto.
    assert (Lj : j < length l) by (apply B; left; auto). cbn [flat_map]. destruct (nth_error l j) as [x|] eqn:E; [|apply nth_error_None in E; lia].
    destruct i as [|i]; cbn [app nth_error]; auto. apply IH. intros k J. apply B. right; auto.
  Qed.
  Lemma permute_length {A} (l : list A) : length (permute place l) = length l.
  Proof. apply Permutation_length, permute_perm. exact PP. Qed.
  Lemma permute_twice {A} (l : list A) : (forall n i j, nth_error (place (seq 0 n)) i = Some j -> nth_error (place (seq 0 n)) j = Some i) -> permute place (permute place l) = l.
  Proof.
    intros O. apply nth_error_ext'. intros i. rewrite nth_permute, permute_length. destruct (nth_error (place (seq 0 (length l))) i) as [j|] eqn:E.
    - rewrite nth_permute, (O _ _ _ E). reflexivity.
    - symmetry. apply nth_error_None. apply nth_error_None in E. rewrite (Permutation_length (PP (seq 0 (length l)))), seq_length in E. exact E.
  Qed.
  Lemma permute_nil {A} : permute place (@nil A) = [].
  Proof. unfold permute. simpl. assert (X : place [] = []) by (apply Permutation_nil; symmetry; apply PP). rewrite X. reflexivity. Qed.
End Order.

(** {1 A tag as a json value} *)
Section AsJson.
  Variable place : list nat -> list nat.
  Notation range := (range place).
  Notation try_attr := (try_attr place).
  Definition opt (t : tag) (name : string) : list (string * json) := match try_attr t name with Some x => [(name, JStr x)] | None => [] end.
  Definition jstrings (l : list string) : json := jarr (map JStr l).
  Definition variable_json (t : tag) : json := JObj (opt t "name" ++ opt t "Size" ++ opt t "evidence").
  Definition image_json (t : tag) : json := JObj (opt t "D" ++ [("v"%string, jstrings (range (attributes t) "v"))]).
  Definition potential_json (t : tag) : json :=
    JObj ([("Variables"%string, jstrings (range (attributes t) "var")); ("Distr_val"%string, jarr (map image_json (range (nested t) "Distr_val")))] ++
          opt t "weight" ++ opt t "tunability" ++
          match mfind place (nested t) "Share" with Some st => [("Share"%string, jstrings (range (attributes st) "var"))] | None => [] end ++ opt t "Correlation").
  Definition root_json (t : tag) : json :=
    JObj [("Variables"%string, jarr (map variable_json (range (nested t) "Variable"))); ("Potentials"%string, jarr (map potential_json (range (nested t) "Potential")))].

  (** the values of the attributes that are read *)
  Definition plain_attr (t : tag) (name : string) : Prop := Forall plain (range (attributes t) name).
  Definition plain_potential (t : tag) : Prop :=
    plain_attr t "var" /\ plain_attr t "weight" /\ plain_attr t "tunability" /\ plain_attr t "Correlation" /\ try_attr t "Source" = None /\
    Forall (fun i => plain_attr i "D" /\ plain_attr i "v") (range (nested t) "Distr_val") /\
    Forall (fun i => plain_attr i "var") (range (nested t) "Share").
  Definition plain_root (t : tag) : Prop :=
    Forall (fun v => plain_attr v "name" /\ plain_attr v "Size" /\ plain_attr v "evidence") (range (nested t) "Variable") /\
    Forall plain_potential (range (nested t) "Potential").

  Lemma try_plain t name x : plain_attr t name -> try_attr t name = Some x -> plain x.
  Proof. unfold plain_attr, Xml.try_attr, mfind. intros F E. destruct (range (attributes t) name) as [|y l]; [discriminate|]. inversion F; subst. injection E as <-. auto. Qed.

  Context {N : num}.
  Variable atof : string -> N.
  Variable files : string -> option string.
  Variable prefix : string.

  Lemma strings_ok {A} (F : string -> res A) l : Forall plain l -> rmap (fun x => let* s := to_string x in F s) (jiter (jstrings l)) = rmap F l.
  Proof.
    intros P. unfold jstrings. rewrite jiter_jarr. induction P as [|x l Px P IH]; auto. cbn [map rmap]. rewrite (to_string_plain x Px). cbn [rbind].
    destruct (F x); cbn [rbind]; auto. rewrite IH. reflexivity.
  Qed.
  Lemma rfold_map {A D E} (f : A -> D -> res A) (g : E -> D) l : forall a, rfold f (map g l) a = rfold (fun a x => f a (g x)) l a.
  Proof. induction l as [|x l IH]; intros a; auto. cbn [map rfold]. destruct (f a (g x)); cbn [rbind]; auto. Qed.
  Lemma rfold_same {A D} (f g : A -> D -> res A) l : (forall a x, In x l -> f a x = g a x) -> forall a, rfold f l a = rfold g l a.
  Proof. induction l as [|x l IH]; intros Q a; auto. cbn [rfold]. rewrite Q by (left; auto). destruct (g a x); cbn [rbind]; auto. apply IH. intros; apply Q; right; auto. Qed.

  Lemma variable_same st t : plain_attr t "name" /\ plain_attr t "Size" /\ plain_attr t "evidence" -> xml_import_variable place st t = import_variable st (variable_json t).
  Proof.
    intros (P1 & P2 & P3). unfold xml_import_variable, import_variable, variable_json, access, attr, opt.
    destruct (try_attr t "name") as [name|] eqn:E1; destruct (try_attr t "Size") as [size|] eqn:E2; destruct (try_attr t "evidence") as [o|] eqn:E3; cbn [app];
      repeat match goal with |- context [try_access (JObj ?l) ?n] => let r := eval lazy [try_access jmember find option_map fst snd String.eqb Ascii.eqb Bool.eqb] in (try_access (JObj l) n) in change (try_access (JObj l) n) with r end;
      cbn [rbind]; auto;
      repeat (rewrite to_string_plain by (eapply try_plain; [|eassumption]; assumption)); cbn [rbind]; auto.
  Qed.
  Lemma group_same e vars t : plain_attr t "var" -> xml_import_group place e vars t = import_group e vars (jstrings (range (attributes t) "var")).
  Proof. intros P. unfold xml_import_group, import_group. rewrite (strings_ok (find_name e vars)) by exact P. reflexivity. Qed.
  Lemma image_same f t : plain_attr t "D" /\ plain_attr t "v" -> xml_import_image atof place f t = import_image atof f (image_json t).
  Proof.
    intros (P1 & P2). unfold xml_import_image, import_image, image_json, attr, opt. destruct (try_attr t "D") as [d|] eqn:E; cbn [app].
    - change (jindex (JObj [("D"%string, JStr d); ("v"%string, jstrings (range (attributes t) "v"))]) "v") with (Ok (jstrings (range (attributes t) "v"))). cbn [rbind].
      rewrite (strings_ok read_size) by exact P2. destruct (rmap read_size (range (attributes t) "v")); cbn [rbind]; auto.
      change (access (JObj [("D"%string, JStr d); ("v"%string, jstrings (range (attributes t) "v"))]) "D") with (Ok (JStr d)). cbn [rbind].
      rewrite to_string_plain by (eapply try_plain; [|eassumption]; assumption). reflexivity.
    - change (jindex (JObj [("v"%string, jstrings (range (attributes t) "v"))]) "v") with (Ok (jstrings (range (attributes t) "v"))). cbn [rbind].
      rewrite (strings_ok read_size) by exact P2. destruct (rmap read_size (range (attributes t) "v")); cbn [rbind]; auto.
  Qed.

  Lemma jm_app l1 l2 name : jmember (l1 ++ l2) name = match jmember l1 name with Some x => Some x | None => jmember l2 name end.
  Proof. unfold jmember. induction l1 as [|[k x] l1 IH]; auto. cbn [app find fst]. destruct (String.eqb k name); auto. Qed.
  Lemma jm_opt t k name : jmember (opt t k) name = if String.eqb k name then option_map JStr (try_attr t k) else None.
  Proof. unfold opt, jmember. destruct (try_attr t k); cbn [find fst]. destruct (String.eqb k name); reflexivity. destruct (String.eqb k name); reflexivity. Qed.
  Lemma jm_one k x name : jmember [(k, x)] name = if String.eqb k name then Some x else None.
  Proof. unfold jmember. cbn [find fst]. destruct (String.eqb k name); reflexivity. Qed.
  Lemma jm_cons k x l name : jmember ((k, x) :: l) name = if String.eqb k name then Some x else jmember l name.
  Proof. unfold jmember. cbn [find fst]. destruct (String.eqb k name); reflexivity. Qed.
  Lemma jm_share t name : jmember (match mfind place (nested t) "Share" with Some st => [("Share"%string, jstrings (range (attributes st) "var"))] | None => [] end) name =
    if String.eqb "Share" name then option_map (fun st => jstrings (range (attributes st) "var")) (mfind place (nested t) "Share") else None.
  Proof. destruct (mfind place (nested t) "Share"); [rewrite jm_one|]; destruct (String.eqb "Share" name); reflexivity. Qed.
  Ltac member := unfold access, try_access, potential_json; rewrite ?jm_app, ?jm_opt, ?jm_share, ?jm_cons; cbn [String.eqb Ascii.eqb Bool.eqb]; reflexivity.
  Lemma pot_vars t : access (potential_json t) "Variables" = Ok (jstrings (range (attributes t) "var")).
  Proof. member. Qed.
  Lemma pot_dist t : access (potential_json t) "Distr_val" = Ok (jarr (map image_json (range (nested t) "Distr_val"))).
  Proof. member. Qed.
  Lemma pot_corr t : try_access (potential_json t) "Correlation" = option_map JStr (try_attr t "Correlation").
  Proof. member. Qed.
  Lemma pot_weight t : try_access (potential_json t) "weight" = option_map JStr (try_attr t "weight").
  Proof. unfold try_access, potential_json. rewrite ?jm_app, ?jm_opt, ?jm_share, ?jm_cons; cbn [String.eqb Ascii.eqb Bool.eqb jmember find]. unfold jmember; cbn [find option_map]. destruct (try_attr t "weight"); reflexivity. Qed.
  Lemma pot_tun t : try_access (potential_json t) "tunability" = option_map JStr (try_attr t "tunability").
  Proof. unfold try_access, potential_json. rewrite ?jm_app, ?jm_opt, ?jm_share, ?jm_cons; cbn [String.eqb Ascii.eqb Bool.eqb jmember find]. unfold jmember; cbn [find option_map]. destruct (try_attr t "tunability"); reflexivity. Qed.
  Lemma pot_share t : try_access (potential_json t) "Share" = option_map (fun st => jstrings (range (attributes st) "var")) (mfind place (nested t) "Share").
  Proof. unfold try_access, potential_json. rewrite ?jm_app, ?jm_opt, ?jm_share, ?jm_cons; cbn [String.eqb Ascii.eqb Bool.eqb jmember find]. unfold jmember; cbn [find option_map]. destruct (mfind place (nested t) "Share"); reflexivity. Qed.

  Lemma factor_same e vars t : plain_potential t -> xml_import_factor atof place files prefix e vars t = import_factor atof e vars (potential_json t).
  Proof.
    intros (P1 & _ & _ & P4 & P5 & P6 & _). unfold xml_import_factor, import_factor. rewrite pot_vars. cbn [rbind]. rewrite group_same by auto.
    destruct (import_group e vars (jstrings (range (attributes t) "var"))) as [g| | | |]; cbn [rbind]; auto. rewrite pot_corr, P5.
    destruct (try_attr t "Correlation") as [c|] eqn:E; cbn [option_map].
    - rewrite to_string_plain by (eapply try_plain; [|eassumption]; assumption). cbn [rbind]. reflexivity.
    - rewrite pot_dist. destruct (group_ctor (g_soup g)); cbn [rbind]; auto. rewrite jiter_jarr, rfold_map. apply rfold_same.
      intros f i J. apply image_same. rewrite Forall_forall in P6. apply P6; auto.
  Qed.
  Lemma potential_same e vars t : plain_potential t -> xml_import_potential atof place files prefix e vars t = import_potential atof e vars (potential_json t).
  Proof.
    intros P. unfold xml_import_potential, import_potential. rewrite (factor_same e vars t P), pot_weight, pot_tun, pot_share. destruct P as (P1 & P2 & P3 & _ & _ & _ & P7).
    destruct (import_factor atof e vars (potential_json t)) as [shape| | | |]; cbn [rbind]; auto.
    destruct (try_attr t "weight") as [w|] eqn:E2; cbn [option_map]; auto. rewrite to_string_plain by (eapply try_plain; [|eassumption]; assumption). cbn [rbind].
    destruct (exp_ctor shape (atof w)); cbn [rbind]; auto.
    assert (X : (let* tunable := match option_map JStr (try_attr t "tunability") with None => Ok false | Some jt => let* x := to_string jt in Ok (String.eqb x "Y") end in Ok tunable) =
      Ok (match try_attr t "tunability" with None => false | Some x => String.eqb x "Y" end)).
    { destruct (try_attr t "tunability") as [y|] eqn:E3; cbn [option_map rbind]; auto. rewrite to_string_plain by (eapply try_plain; [|eassumption]; assumption). reflexivity. }
    destruct (match option_map JStr (try_attr t "tunability") with None => Ok false | Some jt => let* x := to_string jt in Ok (String.eqb x "Y") end) as [b| | | |]; cbn [rbind] in X; try discriminate X.
    injection X as ->. cbn [rbind]. destruct (match try_attr t "tunability" with None => false | Some x => String.eqb x "Y" end); auto.
    destruct (mfind place (nested t) "Share") as [st|] eqn:E4; cbn [option_map]; auto. rewrite group_same. reflexivity.
    unfold mfind in E4. destruct (range (nested t) "Share") as [|y l]; [discriminate|]. injection E4 as <-. inversion P7; auto.
  Qed.
  Lemma all_same e tun vars ts : Forall plain_potential ts -> forall c (s : rst (N:=N)), xml_import_all atof place files prefix e tun vars ts c s = import_all atof e tun vars (map potential_json ts) c s.
  Proof.
    intros P. induction P as [|t ts Pt P IH]; intros c s; auto. cbn [xml_import_all map import_all]. unfold xml_import_one, import_one. rewrite (potential_same e vars t Pt).
    match goal with |- obind ?a _ = obind ?b _ => change a with b; destruct b; cbn [obind]; auto end.
  Qed.
  Lemma import_same e tun next t (s : rst (N:=N)) : plain_root t -> import_xml atof place files prefix e tun next t s = import_json atof e tun next (root_json t) s.
  Proof.
    intros [P1 P2]. unfold import_xml, import_json. assert (E : convert_xml atof place files prefix e tun next t s = convert_json atof e tun next (root_json t) s); [|rewrite E; reflexivity].
    unfold convert_xml, convert_json.
    change (jindex (root_json t) "Variables") with (Ok (jarr (map variable_json (range (nested t) "Variable")))).
    change (jindex (root_json t) "Potentials") with (Ok (jarr (map potential_json (range (nested t) "Potential")))). cbn [rbind].
    rewrite !jiter_jarr, rfold_map.
    assert (V : rfold (xml_import_variable place) (range (nested t) "Variable") (mkIV next [] []) = rfold (fun a x => import_variable a (variable_json x)) (range (nested t) "Variable") (mkIV next [] [])).
    { apply rfold_same. intros a x J. apply variable_same. rewrite Forall_forall in P1. apply P1; auto. }
    rewrite V. destruct (rfold (fun a x => import_variable a (variable_json x)) (range (nested t) "Variable") (mkIV next [] [])); cbn [lift obind]; auto. rewrite (all_same e tun _ _ P2), jiter_jarr. reflexivity.
  Qed.
End AsJson.

(** {1 What is exported} *)
Lemma with_key_app {A} (l l' : list (string * A)) key : with_key (l ++ l') key = with_key l key ++ with_key l' key.
Proof. unfold with_key. rewrite filter_app, map_app. reflexivity. Qed.
Lemma with_key_all {A B} (F : B -> string * A) l key : (forall x, fst (F x) = key) -> with_key (map F l) key = map (fun x => snd (F x)) l.
Proof. intros E. unfold with_key. induction l as [|x l IH]; auto. cbn [map filter]. rewrite E, String.eqb_refl. cbn [map]. f_equal. auto. Qed.
Lemma with_key_other {A B} (F : B -> string * A) l k key : (forall x, fst (F x) = k) -> String.eqb k key = false -> with_key (map F l) key = [].
Proof. intros E NE. unfold with_key. induction l as [|x l IH]; auto. cbn [map filter]. rewrite E, NE. auto. Qed.
Lemma with_key_sure {A} (l : list (string * A)) key : (forall p, In p l -> fst p = key) -> with_key l key = map snd l.
Proof. unfold with_key. induction l as [|p l IH]; auto. intros Q. cbn [filter]. rewrite (Q p) by (left; auto). rewrite String.eqb_refl. cbn [map]. f_equal. apply IH. intros; apply Q; right; auto. Qed.
Lemma with_key_none {A} (l : list (string * A)) k key : (forall p, In p l -> fst p = k) -> String.eqb k key = false -> with_key l key = [].
Proof. unfold with_key. induction l as [|p l IH]; auto. intros Q NE. cbn [filter]. rewrite (Q p) by (left; auto). rewrite NE. apply IH; auto. intros; apply Q; right; auto. Qed.

Lemma F2_nth_error {A B} (R : A -> B -> Prop) l l' : length l = length l' -> (forall i a b, nth_error l i = Some a -> nth_error l' i = Some b -> R a b) -> Forall2 R l l'.
Proof.
  revert l'. induction l as [|a l IH]; intros [|b l'] L Q; try discriminate L; constructor. apply (Q 0); auto. apply IH. simpl in L; lia. intros i. apply (Q (S i)).
Qed.
Lemma F2_at {A B} (R : A -> B -> Prop) l l' : Forall2 R l l' -> forall i a b, nth_error l i = Some a -> nth_error l' i = Some b -> R a b.
Proof. induction 1; intros [|i] u v; simpl; try discriminate. intros E1 E2; congruence. apply IHForall2. Qed.
Lemma F2_permute {A B} (R : A -> B -> Prop) place l l' : (forall l, Permutation (place l) l) -> Forall2 R l l' -> Forall2 R (permute place l) (permute place l').
Proof.
  intros PP F. pose proof (Forall2_length F) as L || (assert (L : length l = length l') by (clear -F; induction F; simpl; auto)).
  apply F2_nth_error. { rewrite !permute_length; auto. }
  intros i a b. rewrite !nth_permute, L by auto. destruct (nth_error (place (seq 0 (length l'))) i) as [j|]; [|discriminate]. apply F2_at; auto.
Qed.

Section Exported.
  Variable place : list nat -> list nat.
  Hypothesis OR : orderly place.
  Let PP : forall l, Permutation (place l) l := proj1 OR.
  Notation range := (range place).
  Notation reads := (reads place).

  Lemma reads_attr t t' : reads t t' -> forall key, range (attributes t') key = with_key (attributes t) key.
  Proof. intros [? ? E _] key. unfold Xml.range. rewrite E. apply permute_twice. exact PP. apply OR. Qed.
  Lemma reads_nested t t' : reads t t' -> forall key, Forall2 reads (with_key (nested t) key) (range (nested t') key).
  Proof.
    intros [? ? _ F] key. specialize (F key). apply (F2_permute _ place) in F; [|exact PP]. unfold Xml.range in F at 1. rewrite permute_twice in F; [|exact PP|apply OR]. exact F.
  Qed.
  Lemma reads_opt t t' name : reads t t' -> opt place t' name = match with_key (attributes t) name with [] => [] | x :: _ => [(name, JStr x)] end.
  Proof. intros R. unfold opt, try_attr, mfind. rewrite (reads_attr t t' R). destruct (with_key (attributes t) name); auto. Qed.
  Lemma reads_plain t t' name : reads t t' -> Forall plain (with_key (attributes t) name) -> plain_attr place t' name.
  Proof. intros R F. unfold plain_attr. rewrite (reads_attr t t' R). exact F. Qed.

  Context {N : num}.
  Variable fprint : N -> string.
  Hypothesis fprint_plain : forall x, plain (fprint x).

  Definition item (p : var * option nat) : string * tag :=
    xml_variable (fst p) (match snd p with Some k => [("evidence"%string, written k)] | None => [] end).
  Lemma item_read p t' : plain (vname (fst p)) -> reads (snd (item p)) t' ->
    variable_json place t' = print_item p /\ plain_attr place t' "name" /\ plain_attr place t' "Size" /\ plain_attr place t' "evidence".
  Proof.
    destruct p as [v [k|]]; cbn [fst snd]; intros P R.
    - split. { unfold variable_json. rewrite !(reads_opt _ _ _ R). reflexivity. } split; [|split]; apply (reads_plain _ _ _ R); repeat constructor; auto; apply written_plain.
    - split. { unfold variable_json. rewrite !(reads_opt _ _ _ R). reflexivity. } split; [|split]; apply (reads_plain _ _ _ R); repeat constructor; auto; apply written_plain.
  Qed.
  Lemma plain_written l : Forall plain (map written l).
  Proof. apply Forall_forall. intros x J. apply in_map_iff in J as (k & <- & _). apply written_plain. Qed.
  Lemma image_read p t' : reads (snd (xml_image fprint p)) t' -> image_json place t' = print_image fprint p /\ plain_attr place t' "D" /\ plain_attr place t' "v".
  Proof.
    intros R.
    assert (EV : with_key (attributes (snd (xml_image fprint p))) "v" = map written (fst p)).
    { cbn [xml_image snd attributes]. change (with_key (map (fun k => ("v"%string, written k)) (fst p)) "v" = map written (fst p)). rewrite with_key_all; reflexivity. }
    assert (ED : with_key (attributes (snd (xml_image fprint p))) "D" = [fprint (snd p)]).
    { cbn [xml_image snd attributes]. change (fprint (snd p) :: with_key (map (fun k => ("v"%string, written k)) (fst p)) "D" = [fprint (snd p)]). f_equal. apply with_key_other with "v"%string; reflexivity. }
    split; [|split].
    - unfold image_json, print_image. rewrite (reads_opt _ _ _ R), (reads_attr _ _ R), ED, EV. cbn [app]. unfold jstrings. rewrite map_map. reflexivity.
    - apply (reads_plain _ _ _ R). rewrite ED. repeat constructor. auto.
    - apply (reads_plain _ _ _ R). rewrite EV. apply plain_written.
  Qed.

  (** a potential with the attributes and the nested tags written by the exporter *)
  Section Potential.
    Variable f : func N.
    Hypothesis names : Forall (fun v => plain (vname v)) (f_vars f).
    Variable es : list (list nat * N).
    Variable weight tunability : option string.
    Variable share : option (list var).
    Hypothesis PW : forall x, weight = Some x -> plain x.
    Hypothesis PT : forall x, tunability = Some x -> plain x.
    Hypothesis PS : forall vs, share = Some vs -> Forall (fun v => plain (vname v)) vs.
    Definition owned (key : string) (o : option string) : list (string * string) := match o with Some x => [(key, x)] | None => [] end.
    Definition ojson (key : string) (o : option string) : list (string * json) := match o with Some x => [(key, JStr x)] | None => [] end.
    Definition made_tag : tag :=
      Tag (xml_group (f_vars f) ++ owned "weight" weight ++ owned "tunability" tunability)
          (map (xml_image fprint) es ++ match share with None => [] | Some vs => [("Share"%string, Tag (xml_group vs) [])] end).
    Lemma names_plain vs : Forall (fun v => plain (vname v)) vs -> Forall plain (map vname vs).
    Proof. intros P. apply Forall_forall. intros x J. apply in_map_iff in J as (v & <- & J). rewrite Forall_forall in P. apply P; auto. Qed.
    Lemma group_key vs key : with_key (xml_group vs) key = if String.eqb "var" key then map vname vs else [].
    Proof. unfold xml_group. destruct (String.eqb "var" key) eqn:E. apply String.eqb_eq in E. subst key. rewrite with_key_all; reflexivity. apply with_key_other with "var"%string; auto. Qed.
    Lemma owned_key k o key : with_key (owned k o) key = if String.eqb k key then match o with Some x => [x] | None => [] end else [].
    Proof. unfold owned, with_key. destruct o; cbn [filter fst]; destruct (String.eqb k key); reflexivity. Qed.
    Lemma made_attr key : with_key (attributes made_tag) key =
      (if String.eqb "var" key then map vname (f_vars f) else []) ++ (if String.eqb "weight" key then match weight with Some x => [x] | None => [] end else []) ++
      (if String.eqb "tunability" key then match tunability with Some x => [x] | None => [] end else []).
    Proof. cbn [attributes made_tag]. rewrite !with_key_app, group_key, !owned_key. reflexivity. Qed.
    Lemma made_images : with_key (nested made_tag) "Distr_val" = map (fun p => snd (xml_image fprint p)) es.
    Proof. cbn [nested made_tag]. rewrite with_key_app, with_key_all by reflexivity. destruct share; cbn; rewrite app_nil_r; reflexivity. Qed.
    Lemma made_share : with_key (nested made_tag) "Share" = match share with Some vs => [Tag (xml_group vs) []] | None => [] end.
    Proof. cbn [nested made_tag]. rewrite with_key_app. rewrite with_key_other with (k := "Distr_val"%string) by reflexivity. destruct share; reflexivity. Qed.
    Lemma F2_map_read (l : list tag) : Forall2 reads (map (fun p => snd (xml_image fprint p)) es) l ->
      map (image_json place) l = map (print_image fprint) es /\ Forall (fun i => plain_attr place i "D" /\ plain_attr place i "v") l.
    Proof.
      revert l. induction es as [|p ps IH]; intros l F; inversion F as [|? t' ? l' R F']; subst. auto. destruct (IH _ F') as [E P]. destruct (image_read p t' R) as (E1 & P1 & P2).
      split; [cbn [map]; congruence|constructor; auto].
    Qed.
    Lemma made_read t' : reads made_tag t' -> plain_potential place t' /\
      potential_json place t' = JObj ([("Variables"%string, print_group (f_vars f)); ("Distr_val"%string, jarr (map (print_image fprint) es))] ++
        ojson "weight" weight ++ ojson "tunability" tunability ++ match share with None => [] | Some vs => [("Share"%string, print_group vs)] end).
    Proof.
      intros R. pose proof (reads_nested _ _ R "Distr_val") as RD. rewrite made_images in RD. apply F2_map_read in RD as [ED PD].
      pose proof (reads_nested _ _ R "Share") as RS. rewrite made_share in RS.
      assert (EV : range (attributes t') "var" = map vname (f_vars f)) by (rewrite (reads_attr _ _ R), made_attr; cbn [String.eqb Ascii.eqb Bool.eqb]; rewrite !app_nil_r; reflexivity).
      assert (ES : match mfind place (nested t') "Share" with Some st => [("Share"%string, jstrings (range (attributes st) "var"))] | None => [] end =
        match share with None => [] | Some vs => [("Share"%string, print_group vs)] end /\ Forall (fun i => plain_attr place i "var") (range (nested t') "Share")).
      { unfold mfind. destruct share as [vs|]; inversion RS as [|? st ? l' Rs F']; subst; auto. inversion F'; subst. cbn [hd_error]. split.
        - unfold jstrings, print_group. rewrite (reads_attr _ _ Rs). cbn [attributes]. rewrite group_key. cbn [String.eqb Ascii.eqb Bool.eqb]. rewrite map_map. reflexivity.
        - constructor; auto. apply (reads_plain _ _ _ Rs). cbn [attributes]. rewrite group_key. cbn [String.eqb Ascii.eqb Bool.eqb]. apply names_plain. auto. }
      destruct ES as [ES PSh]. split.
      - unfold plain_potential. split; [|split; [|split; [|split; [|split; [|split]]]]]; auto.
        + unfold plain_attr. rewrite EV. apply names_plain; auto.
        + apply (reads_plain _ _ _ R). rewrite made_attr. cbn [String.eqb Ascii.eqb Bool.eqb app]. destruct weight; repeat constructor. auto.
        + apply (reads_plain _ _ _ R). rewrite made_attr. cbn [String.eqb Ascii.eqb Bool.eqb app]. destruct tunability; repeat constructor. auto.
        + apply (reads_plain _ _ _ R). rewrite made_attr. cbn [String.eqb Ascii.eqb Bool.eqb app]. constructor.
        + unfold try_attr, mfind. rewrite (reads_attr _ _ R), made_attr. cbn [String.eqb Ascii.eqb Bool.eqb app]. reflexivity.
      - unfold potential_json. rewrite EV, ED, ES, !(reads_opt _ _ _ R), !made_attr. cbn [String.eqb Ascii.eqb Bool.eqb app]. rewrite !app_nil_r.
        unfold jstrings, print_group. rewrite map_map. f_equal. f_equal. f_equal. destruct weight; destruct tunability; reflexivity.
    Qed.
  End Potential.

  Definition goodnames (f : func N) : Prop := Forall (fun v => plain (vname v)) (f_vars f).
  Lemma plain_Y : plain "Y". Proof. repeat constructor; vm_compute; try lia; discriminate. Qed.
  Lemma plain_N : plain "N". Proof. repeat constructor; vm_compute; try lia; discriminate. Qed.
  (** the tags of the potentials, and the values written in json *)
  Definition same_export (p : string * tag) (j : json) : Prop :=
    fst p = "Potential"%string /\ forall t', reads (snd p) t' -> plain_potential place t' /\ potential_json place t' = j.
  Lemma const_read f j : goodnames f -> print_const fprint f = Ok j -> exists p, xml_const fprint f = Ok p /\ same_export p j.
  Proof.
    unfold print_const, xml_const, print_exp, xml_exp, print_potential, xml_potential. intros G E. destruct (f_exp f) eqn:X.
    - destruct (f_each_nonnull false f) as [es| | | |]; cbn [rbind] in *; try discriminate. destruct (exp_get_weight f) as [w| | | |]; cbn [rbind] in *; try discriminate.
      injection E as <-. eexists. split. reflexivity. split; auto. intros t' R. cbn [snd fst] in R.
      assert (M : Tag ((xml_group (f_vars f) ++ [("weight"%string, fprint w)]) ++ [("tunability"%string, "N"%string)]) (map (xml_image fprint) es) = made_tag f es (Some (fprint w)) (Some "N"%string) None).
      { unfold made_tag, owned. rewrite app_nil_r, <- app_assoc. reflexivity. }
      rewrite M in R. destruct (made_read f G es (Some (fprint w)) (Some "N"%string) None) with (t' := t') as [R1 R2]; auto; try discriminate.
      intros x Q; injection Q as <-; auto. intros x Q; injection Q as <-; apply plain_N.
    - destruct (f_each_nonnull false f) as [es| | | |]; cbn [rbind] in *; try discriminate.
      injection E as <-. eexists. split. reflexivity. split; auto. intros t' R. cbn [snd fst] in R.
      assert (M : Tag (xml_group (f_vars f)) (map (xml_image fprint) es) = made_tag f es None None None). { unfold made_tag, owned. cbn [app]. rewrite !app_nil_r. reflexivity. }
      rewrite M in R. destruct (made_read f G es None None None) with (t' := t') as [R1 R2]; auto; discriminate.
  Qed.
  Lemma tunable_read share f j : goodnames f -> (forall vs, share = Some vs -> Forall (fun v => plain (vname v)) vs) -> print_tunable fprint share f = Ok j ->
    exists p, xml_tunable fprint share f = Ok p /\ same_export p j.
  Proof.
    unfold print_tunable, xml_tunable, print_exp, xml_exp, print_potential, xml_potential. intros G GS E.
    destruct (f_each_nonnull false f) as [es| | | |]; cbn [rbind] in *; try discriminate. destruct (exp_get_weight f) as [w| | | |]; cbn [rbind] in *; try discriminate.
    injection E as <-. eexists. split. reflexivity. split; auto. intros t' R. cbn [snd fst] in R.
    assert (M : Tag ((xml_group (f_vars f) ++ [("weight"%string, fprint w)]) ++ [("tunability"%string, "Y"%string)]) (map (xml_image fprint) es ++ match share with None => [] | Some vs => [("Share"%string, Tag (xml_group vs) [])] end) =
      made_tag f es (Some (fprint w)) (Some "Y"%string) share). { unfold made_tag, owned. rewrite <- app_assoc. reflexivity. }
    rewrite M in R. destruct (made_read f G es (Some (fprint w)) (Some "Y"%string) share) with (t' := t') as [R1 R2]; auto.
    intros x Q; injection Q as <-; auto. intros x Q; injection Q as <-; apply plain_Y.
  Qed.
  Lemma rmap_read {A P J} (F : A -> res P) (G : A -> res J) (R : P -> J -> Prop) l js : (forall x j, In x l -> G x = Ok j -> exists p, F x = Ok p /\ R p j) -> rmap G l = Ok js -> exists ps, rmap F l = Ok ps /\ Forall2 R ps js.
  Proof.
    revert js. induction l as [|x l IH]; intros js Q E. injection E as <-. exists []. split; auto. cbn [rmap] in *. destruct (G x) as [j| | | |] eqn:Ex; cbn [rbind] in *; try discriminate.
    destruct (rmap G l) as [js'| | | |]; cbn [rbind] in *; try discriminate. injection E as <-. destruct (Q x j (or_introl eq_refl) Ex) as (p & E1 & E2).
    destruct (IH js') as (ps & E3 & E4); auto. { intros; apply Q; auto. right; auto. } exists (p :: ps). split; auto. rewrite E1. cbn [rbind]. rewrite E3. reflexivity.
  Qed.
  Lemma cluster_read (h : nat -> func N) c js : (forall f, In f c -> goodnames (h f)) -> print_cluster fprint h c = Ok js -> exists ps, xml_cluster fprint h c = Ok ps /\ Forall2 same_export ps js.
  Proof.
    destruct c as [|f r]; intros G E; [discriminate|]. cbn [print_cluster xml_cluster] in *. destruct (print_tunable fprint None (h f)) as [j| | | |] eqn:E1; cbn [rbind] in E; try discriminate.
    destruct (rmap (fun g => print_tunable fprint (Some (f_vars (h f))) (h g)) r) as [js'| | | |] eqn:E2; cbn [rbind] in E; try discriminate. injection E as <-.
    apply tunable_read in E1 as (p & Ep & Sp); [|apply G; left; auto|discriminate].
    apply (rmap_read (fun g => xml_tunable fprint (Some (f_vars (h f))) (h g)) _ same_export) in E2 as (ps & E3 & E4).
    - exists (p :: ps). rewrite Ep. cbn [rbind]. rewrite E3. split; auto.
    - intros g j' J E'. apply tunable_read in E'; auto. apply G; right; auto. intros vs Q. injection Q as <-. apply G; left; auto.
  Qed.
  Lemma keyed (ps : list (string * tag)) (js : list json) : Forall2 same_export ps js -> forall p, In p ps -> fst p = "Potential"%string.
  Proof. induction 1; intros q; simpl; [tauto|]. intros [<-|J]; auto. apply H. Qed.
  Lemma all_read ps js l : Forall2 same_export ps js -> Forall2 reads (map snd ps) l -> Forall (plain_potential place) l /\ map (potential_json place) l = js.
  Proof.
    intros F. revert l. induction F as [|p j ps js [_ Q] F IH]; intros l R; inversion R as [|? t' ? l' R1 R2]; subst; auto. destruct (Q t' R1) as [P1 E1]. destruct (IH l' R2) as [P2 E2].
    split; [constructor; auto|cbn [map]; congruence].
  Qed.
  Lemma items_read items l : Forall (fun p => plain (vname (fst p))) items -> Forall2 reads (map (fun p => snd (item p)) items) l ->
    map (variable_json place) l = map print_item items /\ Forall (fun v => plain_attr place v "name" /\ plain_attr place v "Size" /\ plain_attr place v "evidence") l.
  Proof.
    intros P. revert l. induction P as [|p items Pp P IH]; intros l F; inversion F as [|? t' ? l' R F']; subst; auto. destruct (IH _ F') as [E P']. destruct (item_read p t' Pp R) as (E1 & P1).
    split; [cbn [map]; congruence|constructor; auto].
  Qed.

  Notation rst := (rst (N:=N)).
  Lemma observed_read (g : gst (N:=N)) l : forall js,
    rmap (fun a => let* v := node_var g a in match g_ev g a with None => UB | Some k => Ok (JObj (print_variable v ++ [("evidence"%string, JStr (written k))])) end) l = Ok js ->
    exists obs, js = map print_item obs /\ (forall p, In p obs -> exists a, In a l /\ node_var g a = Ok (fst p)) /\
      rmap (fun a => let* v := node_var g a in match g_ev g a with None => UB | Some k => Ok (xml_variable v [("evidence"%string, written k)]) end) l = Ok (map item obs).
  Proof.
    induction l as [|a l IH]; intros js E. injection E as <-. exists []. split; [|split]; auto. intros p [].
    cbn [rmap] in *. destruct (node_var g a) as [v| | | |] eqn:V; cbn [rbind] in *; try discriminate. destruct (g_ev g a) as [k|] eqn:K; cbn [rbind] in *; try discriminate.
    match goal with |- context [rbind (rmap ?F l) _] => set (FX := F) in * end.
    destruct (rmap (fun a => let* v := node_var g a in match g_ev g a with None => UB | Some k => Ok (JObj (print_variable v ++ [("evidence"%string, JStr (written k))])) end) l) as [js'| | | |] eqn:E'; cbn [rbind] in E; try discriminate.
    injection E as <-. destruct (IH js' eq_refl) as (obs & E1 & E2 & E3). exists ((v, Some k) :: obs). split; [cbn [map]; rewrite E1; reflexivity|]. split.
    - intros p [<-|J]; [exists a; split; [left|]; auto|]. destruct (E2 p J) as (b & ? & ?). exists b. split; [right|]; auto.
    - rewrite E3. reflexivity.
  Qed.

  (** what is exported to json is what is read from the xml *)
  Theorem export_same e tun (s : rst) j :
    (forall v, In v (hidden_variables e (r_g s)) -> plain (vname v)) ->
    (forall a v, In a (e_ord e (gsize (r_g s)) (keys (gsize (r_g s)) (g_ev (r_g s)))) -> node_var (r_g s) a = Ok v -> plain (vname v)) ->
    (forall f, In f (e_ord e 0 (r_const s)) \/ In f (concat (tunable_clusters s)) -> goodnames (r_h s f)) ->
    export_json fprint e tun s = Ok j -> exists t, export_xml fprint e tun s = Ok t /\ forall t', reads t t' -> plain_root place t' /\ root_json place t' = j.
  Proof.
    unfold export_json, export_xml. intros PH PO PF E.
    match type of E with rbind ?x _ = _ => destruct x as [os| | | |] eqn:E1; cbn [rbind] in E; try discriminate end. apply observed_read in E1 as (obs & -> & IO & E1). rewrite E1. cbn [rbind].
    match type of E with rbind ?x _ = _ => destruct x as [cs| | | |] eqn:E2; cbn [rbind] in E; try discriminate end.
    apply (rmap_read (fun f => xml_const fprint (r_h s f)) _ same_export) in E2 as (xs & E2 & S2); [|intros; apply const_read; auto]. rewrite E2. cbn [rbind].
    match type of E with rbind ?x _ = _ => destruct x as [ts| | | |] eqn:E3; cbn [rbind] in E; try discriminate end. injection E as <-.
    assert (T : exists xt, (if tun then rmap (xml_cluster fprint (r_h s)) (tunable_clusters s) else Ok []) = Ok xt /\ Forall2 (Forall2 same_export) xt ts).
    { destruct tun; [|injection E3 as <-; exists []; auto]. apply (rmap_read (xml_cluster fprint (r_h s)) _ (Forall2 same_export)) in E3; auto.
      intros c js Jc. apply cluster_read. intros f Jf. apply PF. right. apply in_concat. eauto. }
    destruct T as (xt & T1 & T2). rewrite T1. cbn [rbind]. eexists. split. reflexivity. intros t' R.
    assert (F : Forall2 same_export (xs ++ concat xt) (cs ++ concat ts)).
    { apply Forall2_app; auto. clear -T2. induction T2; simpl; auto. apply Forall2_app; auto. }
    set (items := map (fun v => (v, None)) (hidden_variables e (r_g s)) ++ obs).
    assert (EI : map (fun v => xml_variable v []) (hidden_variables e (r_g s)) ++ map item obs = map item items).
    { unfold items. rewrite map_app, map_map. reflexivity. }
    assert (EJ : map (fun v => JObj (print_variable v)) (hidden_variables e (r_g s)) ++ map print_item obs = map print_item items).
    { unfold items. rewrite map_app, map_map. reflexivity. }
    rewrite app_assoc, EI in R. rewrite EJ.
    assert (KI : forall p, In p (map item items) -> fst p = "Variable"%string) by (intros p J; apply in_map_iff in J as (x & <- & _); reflexivity).
    pose proof (reads_nested _ _ R "Variable") as RV. pose proof (reads_nested _ _ R "Potential") as RP. cbn [nested] in RV, RP.
    rewrite with_key_app, (with_key_sure (map item items)), (with_key_none _ "Potential") in RV; [|exact (keyed _ _ F)|reflexivity|exact KI].
    rewrite with_key_app, (with_key_none (map item items) "Variable"), with_key_sure in RP; [|exact (keyed _ _ F)|exact KI|reflexivity].
    rewrite app_nil_r, map_map in RV. cbn [app] in RP. apply items_read in RV as [EV PV]. apply (all_read _ _ _ F) in RP as [PP' EP].
    - split; [split; auto|]. unfold root_json. rewrite EV, EP. reflexivity.
    - apply Forall_forall. intros p J. apply in_app_or in J as [J|J]. apply in_map_iff in J as (v & <- & J). apply PH; auto. destruct (IO p J) as (a & Ja & Ea). apply (PO a); auto.
  Qed.
End Exported.
