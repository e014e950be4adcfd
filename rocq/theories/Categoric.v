(** Model of the categoric part: Variable, Group, GroupRange.
    Sources: /repo/src/src/categoric, /repo/src/header/EasyFactorGraph/categoric. *)
From Coq Require Import String List Arith Bool.
From Verif Require Import Res.
Import ListNotations.
Open Scope nat_scope.

(** {1 Variables} *)

(** [categoric::Variable] held by a [shared_ptr] (Variable.h:18-40). [vid] is the
    identity of the pointed object. [std::size_t] is modelled by unbounded [nat]. *)
Record var := mkVar { vid : nat; vname : string; vsize : nat }.

(** constructor (Variable.cpp:12-18); [id] is the address of the new object *)
Definition make_variable (id : nat) (size : nat) (name : string) : res var :=
  if String.length name =? 0 then Throw
  else if size =? 0 then Throw
  else Ok (mkVar id name size).

(** [Variable::operator==] (Variable.h:30-32) *)
Definition var_veqb (a b : var) : bool :=
  (vsize a =? vsize b) && String.eqb (vname a) (vname b).

(** comparison of two [VariablePtr], i.e. of the addresses *)
Definition var_peqb (a b : var) : bool :=
  (vid a =? vid b) && var_veqb a b.

(** {1 Sets of variables}

    [SmartSet<Variable>] (SmartSet.h:17-32): an [unordered_set] of pointers
    hashed and compared by the pointed value. Modelled by a list in an
    unspecified order. *)
Definition vset_mem (s : list var) (v : var) : bool := existsb (var_veqb v) s.

(** [emplace]: no effect when an equal element is present *)
Definition vset_add (s : list var) (v : var) : list var :=
  if vset_mem s v then s else s ++ [v].

(** [erase(find(v))] *)
Definition vset_remove (s : list var) (v : var) : list var :=
  filter (fun x => negb (var_veqb v x)) s.

(** [to_vars_set] (Group.cpp:12-18) *)
Definition to_vars_set (soup : list var) : list var := fold_left vset_add soup [].

(** [unordered_set::operator==] on [VariablesSet]: same size and for each
    element of the first, the element of the second with the same key is found
    and compared with [operator==] of [shared_ptr], i.e. by address. *)
Definition vset_eqb (a b : list var) : bool :=
  (length a =? length b) &&
  forallb (fun x =>
             match find (var_veqb x) b with
             | Some y => var_peqb x y
             | None => false
             end) a.

(** {1 Groups} *)

(** [Group] (Group.h:26-90) *)
Record group := mkGroup { g_soup : list var; g_set : list var }.

(** [Group(const VariablesSoup &)] (Group.cpp:20-28) *)
Definition group_ctor (soup : list var) : res group :=
  let s := to_vars_set soup in
  if length soup =? 0 then Throw
  else if length soup =? length s then Ok (mkGroup soup s)
  else Throw.

(** [Group(const VariablePtr &)] (Group.cpp:30-33) *)
Definition group_single (v : var) : group := mkGroup [v] [v].

(** [Group::add] (Group.cpp:35-44) *)
Definition group_add (g : group) (v : var) : res group :=
  if vset_mem (g_set g) v then Throw
  else Ok (mkGroup (g_soup g ++ [v]) (vset_add (g_set g) v)).

(** the variadic constructor (Group.h:47-52): [add] of each argument, starting
    from the default (empty) group *)
Definition group_variadic (a b : var) (rest : list var) : res group :=
  rfold group_add (a :: b :: rest) (mkGroup [] []).

(** the loop of [Group::replaceVariables] (Group.cpp:51-55): [k] runs over the
    new variables and reads [group[k]] *)
Fixpoint same_sizes_loop (new : list var) (old : list var) (k : nat) : res unit :=
  match new with
  | [] => Ok tt
  | v :: r =>
      let* o := vget old k in
      if vsize v =? vsize o then same_sizes_loop r old (S k) else Throw
  end.

(** [Group::replaceVariables] (Group.cpp:46-58) *)
Definition group_replace (g : group) (new : list var) : res group :=
  let ns := to_vars_set new in
  if length ns =? length (g_soup g) then
    let* _ := same_sizes_loop new (g_soup g) 0 in
    Ok (mkGroup new ns)
  else Throw.

(** [Group::size] (Group.cpp:60-66) *)
Definition group_size (g : group) : nat :=
  fold_left (fun S v => S * vsize v) (g_soup g) 1.

(** [Group::operator==] (Group.h:62-64) *)
Definition group_eqb (a b : group) : bool := vset_eqb (g_set a) (g_set b).

(** [operator-=] (Group.cpp:68-76) *)
Definition vset_minus (subject to_remove : list var) : list var :=
  fold_left (fun s r => if vset_mem s r then vset_remove s r else s) to_remove subject.

(** [get_complementary] (Group.cpp:78-83) *)
Definition get_complementary (entire subset : list var) : list var :=
  vset_minus entire subset.

(** {1 GroupRange} *)

(** [GroupRange::Data] (GroupRange.h:73-83) *)
Record rdata := mkRData { r_sizes : list nat; r_comb : list nat; r_eor : bool }.

(** [GroupRange]: [std::optional<Data>] (GroupRange.h:84) *)
Definition range := option rdata.

(** constructors (GroupRange.cpp:12-18, 31-43) *)
Definition range_ctor (sizes : list nat) : range :=
  Some (mkRData sizes (map (fun _ => 0) sizes) false).
Definition range_of_group (g : group) : range := range_ctor (map vsize (g_soup g)).
Definition range_end : range := None.

(** [operator*] (GroupRange.h:58): dereference of the optional *)
Definition range_get (r : range) : res (list nat) :=
  match r with Some d => Ok (r_comb d) | None => UB end.

(** [isEqual] (GroupRange.h:68,80-82): the sizes are not compared *)
Fixpoint list_eqb (a b : list nat) : bool :=
  match a, b with
  | [], [] => true
  | x :: a', y :: b' => (x =? y) && list_eqb a' b'
  | _, _ => false
  end.
Definition range_eqb (a b : range) : bool :=
  match a, b with
  | None, None => true
  | Some x, Some y => Bool.eqb (r_eor x) (r_eor y) && list_eqb (r_comb x) (r_comb y)
  | _, _ => false
  end.

(** the loop of [operator++] (GroupRange.cpp:51-63) starting at position [k].
    [None] : the range is reset to the end *)
Fixpoint incr_loop (sizes comb : list nat) (k : nat) : res (option (list nat)) :=
  let* c := vget comb k in
  let* s := vget sizes k in
  if S c =? s then
    match k with
    | 0 => Ok None
    | S k' => let* comb' := vset comb k 0 in incr_loop sizes comb' k'
    end
  else
    let* comb' := vset comb k (S c) in Ok (Some comb').

(** [GroupRange::operator++] (GroupRange.cpp:45-65). On an empty combination
    [comb.size() - 1] wraps around and [comb[k]] is out of bounds. *)
Definition range_incr (r : range) : res range :=
  match r with
  | None => Throw
  | Some d =>
      match length (r_comb d) with
      | 0 => UB
      | S k =>
          let* c := incr_loop (r_sizes d) (r_comb d) k in
          match c with
          | None => Ok None
          | Some comb => Ok (Some (mkRData (r_sizes d) comb (r_eor d)))
          end
      end
  end.

(** [for_each_combination] (GroupRange.h:96-101): the list of the combinations
    passed to the predicate. [fuel] bounds the number of iterations; running
    out of it is reported as [Loop]. *)
Fixpoint range_run (fuel : nat) (r : range) : res (list (list nat)) :=
  if range_eqb r range_end then Ok []
  else match fuel with
       | 0 => Loop
       | S n =>
           let* c := range_get r in
           let* r' := range_incr r in
           let* cs := range_run n r' in
           Ok (c :: cs)
       end.

(** [sizes_prod] (Function.cpp:14-20) *)
Definition sizes_prod (sizes : list nat) : nat := fold_left Nat.mul sizes 1.

(** all the combinations visited when ranging over [sizes]; the fuel is the
    number of combinations, see [range_run_ok] *)
Definition range_all (sizes : list nat) : res (list (list nat)) :=
  range_run (sizes_prod sizes) (range_ctor sizes).
