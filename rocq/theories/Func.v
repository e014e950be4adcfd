(** Model of the factors: Function, Mutable, Immutable, ImageFinder, Factor,
    FactorExponential.
    Sources: /repo/src/src/factor, /repo/src/header/EasyFactorGraph/factor. *)
From Coq Require Import List Arith Bool.
From Verif Require Import Res Num Categoric.
Import ListNotations.
Open Scope nat_scope.

(** [Function::Info] (Function.h:95-102) *)
Record info := mkInfo { i_sizes : list nat; i_tot : nat; i_critical : nat }.

(** [compute_critical_size(tot, 0.5f)] (Function.cpp:22-25) and [MIN_CRITICAL]
    (Function.cpp:27); float rounding of huge sizes is not modelled *)
Definition compute_critical_size (tot : nat) : nat := tot / 2.
Definition MIN_CRITICAL : nat := 6.

(** [make_info] (Function.cpp:30-39) *)
Definition make_info (g : group) : info :=
  let sizes := map vsize (g_soup g) in
  let tot := sizes_prod sizes in
  mkInfo sizes tot (Nat.max (compute_critical_size tot) MIN_CRITICAL).

(** [CombinationHasher::operator()] (Function.cpp:49-58): walks the sizes,
    reading [comb[k]]; [prod /= sizes[k]] *)
Fixpoint hash_loop (sizes comb : list nat) (prod acc : nat) : res nat :=
  match sizes with
  | [] => Ok acc
  | s :: ss =>
      match comb with
      | [] => UB
      | c :: cs =>
          match s with
          | 0 => UB
          | _ => let prod' := prod / s in hash_loop ss cs prod' (acc + c * prod')
          end
      end
  end.
Definition hash (i : info) (comb : list nat) : res nat :=
  hash_loop (i_sizes i) comb (i_tot i) 0.

Section Func.
  Context {N : num}.

  (** [std::variant<SparseContainer, DenseContainer>] (Function.h:126-133). The
      sparse container is an [unordered_map]: an association list without
      repeated keys, whose order stands for the unspecified iteration order. *)
  Inductive fdata :=
  | Sparse (l : list (list nat * N))
  | Dense (l : list N).

  (** [Function] (Function.h:17-134). [f_exp = Some w] for the derived class
      [ExponentialFunction] with weight [w] (FactorExponential.cpp:20-39),
      [None] for all the other functions, whose [transform] is the identity
      (Function.h:124). *)
  Record func := mkFunc {
    f_group : group;
    f_info : info;
    f_data : fdata;
    f_exp : option N
  }.

  Definition f_vars (f : func) : list var := g_soup (f_group f).

  (** [transform] (Function.h:124, FactorExponential.cpp:35) *)
  Definition transform (f : func) (x : N) : N :=
    match f_exp f with
    | None => x
    | Some w => nexp (w * x)%num
    end.

  (** constructor (Function.cpp:45-47) *)
  Definition func_ctor (g : group) : func := mkFunc g (make_info g) (Sparse []) None.

  Definition with_data (f : func) (d : fdata) : func :=
    mkFunc (f_group f) (f_info f) d (f_exp f).

  (** [unordered_map::find], comparing the keys *)
  Fixpoint assoc (l : list (list nat * N)) (c : list nat) : option N :=
    match l with
    | [] => None
    | (k, x) :: r => if list_eqb k c then Some x else assoc r c
    end.

  (** [c[comb] = img] *)
  Fixpoint assoc_set (l : list (list nat * N)) (c : list nat) (x : N) : list (list nat * N) :=
    match l with
    | [] => [(c, x)]
    | (k, y) :: r => if list_eqb k c then (k, x) :: r else (k, y) :: assoc_set r c x
    end.

  (** lookup in the sparse container: the hash of the key is computed first *)
  Definition sparse_find (i : info) (l : list (list nat * N)) (c : list nat) : res (option N) :=
    let* _ := hash i c in Ok (assoc l c).

  (** conversion of a sparse container into a dense one (Function.cpp:66-75) *)
  Definition to_dense (i : info) (l : list (list nat * N)) : res (list N) :=
    rfold (fun values e => let* h := hash i (fst e) in vset values h (snd e))
          l (repeat (n0 : N) (i_tot i)).

  (** [Function::set] (Function.cpp:60-82) *)
  Definition f_set (f : func) (comb : list nat) (img : N) : res func :=
    match f_data f with
    | Sparse l =>
        let* _ := hash (f_info f) comb in
        let l' := assoc_set l comb img in
        if i_critical (f_info f) <=? length l' then
          let* values := to_dense (f_info f) l' in
          Ok (with_data f (Dense values))
        else Ok (with_data f (Sparse l'))
    | Dense v =>
        let* h := hash (f_info f) comb in
        let* v' := vset v h img in
        Ok (with_data f (Dense v'))
    end.

  (** [Function::findImage] (Function.cpp:84-100) *)
  Definition f_find (f : func) (comb : list nat) : res N :=
    match f_data f with
    | Sparse l =>
        let* o := sparse_find (f_info f) l comb in
        Ok (match o with Some x => x | None => n0 end)
    | Dense v => let* h := hash (f_info f) comb in vget v h
    end.

  (** [Function::findTransformed] (Function.cpp:102-106) *)
  Definition f_findt (f : func) (comb : list nat) : res N :=
    let* raw := f_find f comb in Ok (transform f raw).

  (** [Function::clear] (Function.h:31) *)
  Definition f_clear (f : func) : func := with_data f (Sparse []).

  (** [Function::cloneImages] (Function.h:23) *)
  Definition f_cloneImages (f o : func) : func := with_data f (f_data o).

  Definition tr (useTransformed : bool) (f : func) (x : N) : N :=
    if useTransformed then transform f x else x.

  (** walk of the dense container with an iterator parallel to the range
      (Function.h:49-59): dereferencing past the end is undefined *)
  Fixpoint dense_walk (g : N -> N) (cs : list (list nat)) (v : list N) : res (list (list nat * N)) :=
    match cs with
    | [] => Ok []
    | c :: cs' =>
        match v with
        | [] => UB
        | x :: v' => let* r := dense_walk g cs' v' in Ok ((c, g x) :: r)
        end
    end.

  (** [Function::forEachCombination] (Function.h:34-62): the list of the pairs
      passed to the predicate *)
  Definition f_each (t : bool) (f : func) : res (list (list nat * N)) :=
    let* cs := range_all (i_sizes (f_info f)) in
    match f_data f with
    | Sparse l =>
        rmap (fun c =>
                let* o := sparse_find (f_info f) l c in
                Ok (c, tr t f (match o with Some x => x | None => n0 end))) cs
    | Dense v => dense_walk (tr t f) cs v
    end.

  Fixpoint dense_walk_nonnull (g : N -> N) (cs : list (list nat)) (v : list N) : res (list (list nat * N)) :=
    match cs with
    | [] => Ok []
    | c :: cs' =>
        match v with
        | [] => UB
        | x :: v' =>
            let* r := dense_walk_nonnull g cs' v' in
            Ok (if neqb x n0 then r else (c, g x) :: r)
        end
    end.

  (** [Function::forEachNonNullCombination] (Function.h:65-93) *)
  Definition f_each_nonnull (t : bool) (f : func) : res (list (list nat * N)) :=
    match f_data f with
    | Sparse l => Ok (map (fun e => (fst e, tr t f (snd e))) l)
    | Dense v =>
        let* cs := range_all (i_sizes (f_info f)) in
        dense_walk_nonnull (tr t f) cs v
    end.

  (** {1 Mutable} *)

  (** the checks of [Mutable::set] (Mutable.cpp:19-30) *)
  Fixpoint comb_in_range (vars : list var) (comb : list nat) : bool :=
    match vars, comb with
    | v :: vs, c :: cs => if vsize v <=? c then false else comb_in_range vs cs
    | _, _ => true
    end.

  (** [Mutable::set] (Mutable.cpp:18-32) *)
  Definition m_set (f : func) (comb : list nat) (value : N) : res func :=
    if nltb value n0 then Throw
    else if negb (length comb =? length (f_vars f)) then Throw
    else if comb_in_range (f_vars f) comb then f_set f comb value
    else Throw.

  (** [Mutable::replaceVariables] (Mutable.h:38-40) *)
  Definition m_replace (f : func) (new : list var) : res func :=
    let* g := group_replace (f_group f) new in
    Ok (mkFunc g (f_info f) (f_data f) (f_exp f)).

  (** {1 Immutable} *)

  (** [Immutable::getProbabilities] (Immutable.cpp:19-42) *)
  Definition get_probabilities (f : func) : res (list N) :=
    let* es := f_each true f in
    let probs := map snd es in
    let sum := fold_left nadd probs n0 in
    if neqb sum n0 then
      let e := (n1 / nofnat (length probs))%num in
      Ok (map (fun _ => e) probs)
    else Ok (map (fun v => (v / sum)%num) probs).

  (** {1 ImageFinder} *)
  Record finder := mkFinder { fd_func : func; fd_idx : list nat }.

  (** [find_var] (ImageFinder.cpp:15-24) *)
  Fixpoint find_var (bigger : list var) (v : var) : option nat :=
    match bigger with
    | [] => None
    | x :: r => if var_peqb x v then Some 0 else option_map S (find_var r v)
    end.

  (** [get_indices] (ImageFinder.cpp:26-44) *)
  Definition get_indices (vars bigger : list var) : res (list nat) :=
    if length bigger <? length vars then Throw
    else rmap (fun v => match find_var bigger v with Some k => Ok k | None => Throw end) vars.

  (** [Immutable::makeFinder] (Immutable.cpp:44-47, ImageFinder.cpp:47-51) *)
  Definition make_finder (f : func) (bigger : list var) : res finder :=
    let* ix := get_indices (f_vars f) bigger in Ok (mkFinder f ix).

  (** [extractSmallerCombination] (ImageFinder.cpp:53-61) *)
  Definition extract_smaller (fd : finder) (comb : list nat) : res (list nat) :=
    rmap (vget comb) (fd_idx fd).

  (** [ImageFinder::findTransformed], [findImage] (ImageFinder.h:31-37) *)
  Definition fd_findt (fd : finder) (comb : list nat) : res N :=
    let* c := extract_smaller fd comb in f_findt (fd_func fd) c.
  Definition fd_find (fd : finder) (comb : list nat) : res N :=
    let* c := extract_smaller fd comb in f_find (fd_func fd) c.

  (** {1 Factor} *)

  (** copy constructor (Factor.cpp:19-21) *)
  Definition factor_copy (o : func) : func := f_cloneImages (func_ctor (f_group o)) o.

  (** [CloneTrasformedImagesTag] (Factor.cpp:23-29) *)
  Definition factor_clone_transformed (o : func) : res func :=
    let* es := f_each true o in
    rfold (fun f e => f_set f (fst e) (snd e)) es (func_ctor (f_group o)).

  (** [check_all_same_size] (Factor.cpp:32-39) *)
  Definition check_all_same_size (vars : list var) : res unit :=
    match vars with
    | [] => UB
    | v :: _ => if forallb (fun x => vsize x =? vsize v) vars then Ok tt else Throw
    end.

  (** [emplace] into the sparse container: no effect on a present key *)
  Definition sparse_emplace (i : info) (l : list (list nat * N)) (c : list nat) (x : N)
    : res (list (list nat * N)) :=
    let* o := sparse_find i l c in
    Ok (match o with Some _ => l | None => l ++ [(c, x)] end).

  (** [SimplyCorrelatedFunction] (Factor.cpp:63-84); the [k]-th value of
      [SameValuesCombination] (Factor.cpp:41-61) is the combination [k,..,k] *)
  Definition factor_correlated (g : group) : res func :=
    let vars := g_soup g in
    let f := func_ctor g in
    let* _ := check_all_same_size vars in
    if 1 =? length vars then Throw
    else
      let* v0 := vget vars 0 in
      let* imgs := rfold (fun l k => sparse_emplace (f_info f) l (repeat k (length vars)) n1)
                         (seq 0 (vsize v0)) [] in
      Ok (with_data f (Sparse imgs)).

  (** [SimplyAntiCorrelatedFunction] (Factor.cpp:87-113) *)
  Definition factor_anticorrelated (g : group) : res func :=
    let vars := g_soup g in
    let f := func_ctor g in
    if 1 =? length vars then Throw
    else
      let* _ := check_all_same_size vars in
      let* v0 := vget vars 0 in
      let* imgs := rfold (fun v k => let* h := hash (f_info f) (repeat k (length vars)) in
                                     vset v h n0)
                         (seq 0 (vsize v0)) (repeat (n1 : N) (i_tot (f_info f))) in
      Ok (with_data f (Dense imgs)).

  (** [gather_variables] (Factor.cpp:116-132). [ord] is the iteration order of
      the [unordered_set]. *)
  Definition gather_step (s : list var) (v : var) : res (list var) :=
    match find (var_veqb v) s with
    | None => Ok (s ++ [v])
    | Some y => if var_peqb y v then Ok s else Throw
    end.
  Definition gather_variables (ord : list var -> list var) (fs : list func) : res group :=
    let* s := rfold gather_step (flat_map f_vars fs) [] in
    group_ctor (ord s).

  (** comparison of two [VariablesSoup], i.e. of vectors of pointers *)
  Fixpoint soup_eqb (a b : list var) : bool :=
    match a, b with
    | [], [] => true
    | x :: a', y :: b' => var_peqb x y && soup_eqb a' b'
    | _, _ => false
    end.

  (** the product loops of the merge constructor (Factor.cpp:158-166): stop as
      soon as the value is 0 *)
  Fixpoint prod_until_zero (gs : list (list nat -> res N)) (c : list nat) (val : N) : res N :=
    match gs with
    | [] => Ok val
    | g :: r =>
        if neqb val n0 then Ok val
        else let* x := g c in prod_until_zero r c (val * x)%num
    end.

  (** merge constructor (Factor.cpp:135-170) *)
  Definition factor_merge (ord : list var -> list var) (fs : list func) : res func :=
    let* g := gather_variables ord fs in
    match fs with
    | [] => Throw
    | _ =>
        let recipient := func_ctor g in
        let same := filter (fun f => soup_eqb (f_vars f) (g_soup g)) fs in
        let* finders := rmap (fun f => make_finder f (g_soup g))
                             (filter (fun f => negb (soup_eqb (f_vars f) (g_soup g))) fs) in
        let* cs := range_all (map vsize (g_soup g)) in
        rfold (fun r c =>
                 let* v1 := prod_until_zero (map f_findt same) c n1 in
                 let* v2 := prod_until_zero (map fd_findt finders) c v1 in
                 if neqb v2 n0 then Ok r else f_set r c v2)
              cs recipient
    end.

  (** [compute_new_positions] (Factor.cpp:173-183): [std::find] gives the end
      position when the variable is missing *)
  Definition compute_new_positions (old new : list var) : list nat :=
    map (fun v => match find_var new v with Some k => k | None => length new end) old.

  (** [get_permuted] (Factor.cpp:185-194) *)
  Fixpoint permute_loop (subject positions : list nat) (acc : list nat) : res (list nat) :=
    match subject with
    | [] => Ok acc
    | x :: r =>
        match positions with
        | [] => UB
        | p :: ps => let* acc' := vset acc p x in permute_loop r ps acc'
        end
    end.
  Definition get_permuted (subject positions : list nat) : res (list nat) :=
    permute_loop subject positions (map (fun _ => 0) subject).

  (** [Factor::cloneWithPermutedGroup] (Factor.cpp:197-210) *)
  Definition clone_permuted (f : func) (new_order : group) : res func :=
    if vset_eqb (g_set new_order) (g_set (f_group f)) then
      let pos := compute_new_positions (f_vars f) (g_soup new_order) in
      let* es := f_each false f in
      rfold (fun r e => let* c := get_permuted (fst e) pos in f_set r c (snd e))
            es (func_ctor new_order)
    else Throw.

  (** {1 FactorExponential} *)

  (** [ExponentialFunction(giver, w)] (FactorExponential.cpp:22-29); used by the
      constructors (42-44) and by the copy constructor (54-56) *)
  Definition exp_ctor (giver : func) (w : N) : res func :=
    let* es := f_each false giver in
    Ok (mkFunc (f_group giver) (make_info (f_group giver)) (Dense (map snd es)) (Some w)).

  (** [setWeight], [getWeight] (FactorExponential.cpp:31-32, 46-52); a
      [static_cast] to the wrong class is undefined *)
  Definition exp_set_weight (f : func) (w : N) : res func :=
    match f_exp f with
    | Some _ => Ok (mkFunc (f_group f) (f_info f) (f_data f) (Some w))
    | None => UB
    end.
  Definition exp_get_weight (f : func) : res N :=
    match f_exp f with Some w => Ok w | None => UB end.

  (** copy constructor (FactorExponential.cpp:54-56) *)
  Definition exp_copy (f : func) : res func :=
    let* w := exp_get_weight f in exp_ctor f w.
End Func.
Arguments fdata : clear implicits.
Arguments func : clear implicits.
Arguments finder : clear implicits.
