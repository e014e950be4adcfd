(** Model of the imports from text files.
    Sources: /repo/src/src/io/Utils.h, Utils.cpp, TrainSetImport.cpp.
    A file is the string of its characters; a file that cannot be opened is not
    modelled (it throws before anything is done). *)
From Coq Require Import Ascii String List Arith ZArith Bool.
From Verif Require Import Res Num Categoric Func Graph Train.
Import ListNotations.
Open Scope nat_scope.

(** {1 Characters} *)
Definition newline : ascii := "010"%char.
(** [std::isspace] in the default locale: space, \t, \n, \v, \f, \r *)
Definition is_space (c : ascii) : bool :=
  let n := nat_of_ascii c in (n =? 32) || ((9 <=? n) && (n <=? 13)).
Definition digit (c : ascii) : option Z :=
  let n := nat_of_ascii c in if (48 <=? n) && (n <=? 57) then Some (Z.of_nat (n - 48)) else None.

(** {1 Lines and tokens} *)

(** the successive values of [line] in [for_each_line] (Utils.h:42-50). The end of
    file is seen only by the [getline] that reaches it, so that a text with [n]
    newlines gives [n + 1] lines. *)
Fixpoint lines_from (acc : string) (text : string) : list string :=
  match text with
  | EmptyString => [acc]
  | String c r => if Ascii.eqb c newline then acc :: lines_from EmptyString r else lines_from (acc ++ String c EmptyString) r
  end.
Definition lines (text : string) : list string := lines_from EmptyString text.

(** the tokens read by [buff >> token] (Utils.cpp:15-22) *)
Fixpoint tokens_from (acc : string) (line : string) : list string :=
  match line with
  | EmptyString => match acc with EmptyString => [] | _ => [acc] end
  | String c r =>
      if is_space c then match acc with EmptyString => tokens_from EmptyString r | _ => acc :: tokens_from EmptyString r end
      else tokens_from (acc ++ String c EmptyString) r
  end.
Definition tokens (line : string) : list string := tokens_from EmptyString line.

(** {1 Numbers} *)

(** [std::atoi]: leading spaces, an optional sign, digits; what follows is ignored;
    undefined out of the range of [int] *)
Fixpoint digits_value (acc : Z) (s : string) : Z :=
  match s with
  | EmptyString => acc
  | String c r => match digit c with Some d => digits_value (10 * acc + d) r | None => acc end
  end.
Fixpoint skip_spaces (s : string) : string :=
  match s with String c r => if is_space c then skip_spaces r else s | EmptyString => s end.
Definition atoi (s : string) : res Z :=
  let z := match skip_spaces s with
           | String c r => if Ascii.eqb c "-"%char then (- digits_value 0 r)%Z
                           else if Ascii.eqb c "+"%char then digits_value 0 r else digits_value 0 (String c r)
           | EmptyString => 0%Z
           end in
  if (Z.leb (- 2 ^ 31) z && Z.ltb z (2 ^ 31))%Z then Ok z else UB.
(** [static_cast<std::size_t>] *)
Definition to_size (z : Z) : nat := Z.to_nat (z mod 2 ^ 64).

Section IO.
  Context {N : num}.
  (** [std::atof], converted to float *)
  Variable atof : string -> N.

  (** [parse_combination_image] (Utils.cpp:13-30): [tokens.end() - 1] and
      [tokens.back()] are undefined for an empty vector *)
  Definition parse_combination_image (line : string) : res (list nat * N) :=
    match tokens line with
    | [] => UB
    | t :: ts =>
        let* comb := rmap (fun s => let* z := atoi s in Ok (to_size z)) (removelast (t :: ts)) in
        Ok (comb, atof (last (t :: ts) EmptyString))
    end.

  (** a call on a factor that throws leaves it as it is *)
  Definition set_image (f : func N) (comb : list nat) (x : N) : out (func N) unit :=
    match m_set f comb x with Ok f' => Ret tt f' | Throw => Thr f | UB => Undef | Nan => NotNum | Loop => NoStop end.

  (** [import_values] (Utils.cpp:32-46) *)
  Definition import_values (f : func N) (text : string) : out (func N) unit :=
    ofold (fun line f =>
             do (p, f) <- lift (parse_combination_image line) f ;;
             if length (fst p) =? length (f_vars f) then set_image f (fst p) (snd p) else Thr f)
          (lines text) (f_clear f).

  (** [import_train_set] (TrainSetImport.cpp:14-31): [emplace_back(expected_size)]
      constructs a vector of [expected_size] zeros *)
  Fixpoint train_lines (ls : list string) (expected : nat) (combinations : list (list nat)) : res (list (list nat)) :=
    match ls with
    | [] => Ok combinations
    | line :: r =>
        let* p := parse_combination_image line in
        if negb (expected =? 0) && negb (length (fst p) =? expected) then Throw
        else train_lines r (length (fst p)) (combinations ++ [repeat 0 (length (fst p))])
    end.
  Definition import_train_set (text : string) : res (list (list nat)) :=
    let* combinations := train_lines (lines text) 0 [] in
    make_train_set combinations.
End IO.
