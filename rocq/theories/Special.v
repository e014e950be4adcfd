(** Model of the unary factors used by the propagation of the belief.
    Source: /repo/src/src/structure/SpecialFactors.cpp. *)
From Coq Require Import List Arith Bool.
From Verif Require Import Res Num Categoric Func.
Import ListNotations.
Open Scope nat_scope.

(** [PropagationKind] (Types.h:53) *)
Inductive kind := SUM | MAP.
Definition kind_eqb (a b : kind) : bool :=
  match a, b with SUM, SUM => true | MAP, MAP => true | _, _ => false end.

Section Special.
  Context {N : num}.
  Implicit Types f : func N.

  (** constructor of [UnaryFactor] (SpecialFactors.cpp:16-21): the variable;
      [front] of an empty vector is undefined *)
  Definition unary_var f : res var :=
    let* v := vget (f_vars f) 0 in
    if length (f_vars f) =? 1 then Ok v else Throw.

  Definition nabs (x : N) : N := if nltb x n0 then nopp x else x.

  (** [UnaryFactor::diff] (SpecialFactors.cpp:23-31) *)
  Fixpoint diff_loop (a b : list N) (acc : N) : res N :=
    match a with
    | [] => Ok acc
    | x :: a' =>
        match b with
        | [] => UB
        | y :: b' => diff_loop a' b' (acc + nabs (x - y))%num
        end
    end.
  Definition diff f o : res N :=
    let* a := get_probabilities f in
    let* b := get_probabilities o in
    diff_loop a b n0.

  (** [MergableFunction] (SpecialFactors.cpp:34-44): a dense function of ones *)
  Definition mergable (v : var) : func N :=
    mkFunc (group_single v) (make_info (group_single v)) (Dense (repeat n1 (vsize v))) None.

  (** [MergableFunction::merge] (SpecialFactors.cpp:46-52): an iterator on the
      images advances together with the enumeration of the subject *)
  Fixpoint merge_loop (imgs : list N) (es : list (list nat * N)) : res (list N) :=
    match es with
    | [] => Ok imgs
    | (_, img) :: es' =>
        match imgs with
        | [] => UB
        | x :: r => let* r' := merge_loop r es' in Ok ((x * img)%num :: r')
        end
    end.
  Definition mergable_merge f (subject : func N) : res (func N) :=
    match f_data f with
    | Dense imgs =>
        let* es := f_each true subject in
        let* imgs' := merge_loop imgs es in
        Ok (with_data f (Dense imgs'))
    | Sparse _ => UB
    end.

  (** [std::max_element]: the first of the biggest elements; dereferencing the
      end is undefined *)
  Definition max_element (l : list N) : res N :=
    match l with [] => UB | x :: r => Ok (fold_left nmax r x) end.

  (** [MergableFunction::normalize] (SpecialFactors.cpp:54-59) *)
  Definition mergable_normalize f : res (func N) :=
    match f_data f with
    | Dense imgs =>
        let* m := max_element imgs in
        if ndz m then Nan
        else let coeff := (n1 / m)%num in
             Ok (with_data f (Dense (map (fun v => (v * coeff)%num) imgs)))
    | Sparse _ => UB
    end.

  (** [MergedUnaries::MergedUnaries(var)] (SpecialFactors.cpp:66-67) *)
  Definition merged_var (v : var) : func N := mergable v.

  (** [MergedUnaries::merge] (SpecialFactors.cpp:78-87); [None]: null pointer *)
  Definition merged_merge (me : func N) (subject : option (func N)) : res (func N) :=
    match subject with
    | None => UB
    | Some s =>
        let* myvar := unary_var me in
        if negb (length (f_vars s) =? 1) then Throw
        else
          let* v := vget (f_vars s) 0 in
          if negb (var_peqb v myvar) then Throw
          else mergable_merge me s
    end.

  (** [MergedUnaries::MergedUnaries(factors)] (SpecialFactors.cpp:69-76) *)
  Definition merged_unaries (factors : list (option (func N))) : res (func N) :=
    match factors with
    | [] => UB
    | None :: _ => UB
    | Some f0 :: _ =>
        let* v := vget (f_vars f0) 0 in
        let* m := rfold merged_merge factors (mergable v) in
        mergable_normalize m
    end.

  (** [get_other_var] (SpecialFactors.cpp:94-101) *)
  Definition get_other_var (binary : func N) (v : var) : res var :=
    match f_vars binary with
    | [a; b] => Ok (if var_peqb a v then b else a)
    | _ => Throw
    end.

  (** [get_positions] (SpecialFactors.cpp:103-113): position of the given
      variable, position of the other *)
  Definition get_positions (binary : func N) (v : var) : res (nat * nat) :=
    match rev (f_vars binary) with
    | [] => UB
    | back :: _ => Ok (if var_peqb back v then (1, 0) else (0, 1))
    end.

  (** [Evidence::Evidence] (SpecialFactors.cpp:116-131) *)
  Definition evidence_factor (binary : func N) (ev : var) (value : nat) : res (func N) :=
    let* other := get_other_var binary ev in
    let data := func_ctor (group_single other) in
    let* my := unary_var data in
    let* (pos_hidden, pos_evidence) := get_positions binary my in
    let* es := f_each true binary in
    rfold (fun d e =>
             let* ce := vget (fst e) pos_evidence in
             if ce =? value then
               let* ch := vget (fst e) pos_hidden in
               f_set d [ch] (snd e)
             else Ok d) es data.

  (** [Indicator::Indicator] (SpecialFactors.cpp:133-139) *)
  Definition indicator (v : var) (value : nat) : res (func N) :=
    if vsize v <=? value then Throw
    else f_set (func_ctor (group_single v)) [value] n1.

  (** the reducers (SpecialFactors.cpp:171-174, 182-185) *)
  Definition red_init (k : kind) : N := match k with SUM => n0 | MAP => nfltmin end.
  Definition red_update (k : kind) (val v : N) : N :=
    match k with SUM => (val + v)%num | MAP => nmax val v end.

  (** [fill_message] (SpecialFactors.cpp:142-164). Note that [get_positions] is
      called with the variable of the sender and binds [message_pos] to the
      position of this variable. *)
  Definition fill_message (k : kind) (merged binary recipient : func N) : res (func N) :=
    let* sv := unary_var merged in
    let* (message_pos, sender_pos) := get_positions binary sv in
    let* mv := vget (f_vars binary) message_pos in
    rfold (fun rec r =>
             let* es := f_each true merged in
             let* val :=
               rfold (fun val e =>
                        let* s := vget (fst e) 0 in
                        let* c := vset [0; 0] sender_pos s in
                        let* c := vset c message_pos r in
                        let* x := f_findt binary c in
                        Ok (red_update k val (snd e * x)%num)) es (red_init k) in
             f_set rec [r] val)
          (seq 0 (vsize mv)) recipient.

  (** [MessageSUM], [MessageMAP] (SpecialFactors.cpp:167-187) *)
  Definition message (k : kind) (merged binary : func N) : res (func N) :=
    let* sv := unary_var merged in
    let* other := get_other_var binary sv in
    fill_message k merged binary (func_ctor (group_single other)).
End Special.
