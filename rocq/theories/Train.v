(** Model of the training sets, of the const and tunable factors, of their
    weights and of the gradient of a random field.
    Sources: /repo/src/src/trainable, /repo/src/src/model/RandomField.cpp,
    /repo/src/src/structure/FactorsConstManager.cpp. *)
From Coq Require Import String List Arith Bool.
From Verif Require Import Res Num Categoric Func Special Graph Belief Query.
Import ListNotations.
Open Scope nat_scope.

(** {1 Training sets} *)

(** [TrainSet::TrainSet] (TrainSet.cpp:14-25) *)
Definition make_train_set (combs : list (list nat)) : res (list (list nat)) :=
  match combs with
  | [] => Throw
  | c :: _ =>
      if existsb (fun d => (length d =? 0) || negb (length c =? length d)) combs then Throw else Ok combs
  end.

Section Iter.
  Context {N : num}.
  (** [static_cast<int>(floorf(x))] and [rand()]: the [k]-th number drawn *)
  Variable floorf : N -> nat.
  Variable rand : nat -> nat.

  (** [TrainSet::Iterator] (TrainSet.h:43-78) *)
  Record titer := mkTI { ti_combs : list (list nat); ti_subset : option (list nat) }.

  (** constructor (TrainSet.cpp:27-44) *)
  Definition iter_ctor (combs : list (list nat)) (percentage : N) : res titer :=
    if neqb n1 percentage then Ok (mkTI combs None)
    else if negb (nltb n0 percentage) || nltb n1 percentage then Throw
    else
      let size := floorf (percentage * nofnat (length combs))%num in
      let* subset := rmap (fun k => match length combs with 0 => UB | S _ => Ok (rand k mod length combs) end) (seq 0 size) in
      Ok (mkTI combs (Some subset)).

  (** [size] (TrainSet.cpp:54-57) *)
  Definition iter_size (t : titer) : nat :=
    match ti_subset t with Some l => length l | None => length (ti_combs t) end.

  (** [forEachSample] (TrainSet.h:56-68): the combinations passed to the predicate *)
  Definition iter_samples (t : titer) : res (list (list nat)) :=
    match ti_subset t with
    | Some l => rmap (vget (ti_combs t)) l
    | None => Ok (ti_combs t)
    end.
End Iter.

Section Train.
  Context {N : num}.
  Notation gst := (gst (N:=N)).

  (** {1 State} *)

  (** the classes derived from [BaseTuner]: [UnaryTuner] (UnaryTuner.h),
      [BinaryTuner] (BinaryTuner.h), [HiddenObservedTuner]
      (HiddenObservedTuner.h), with the nodes they refer to. In the last one
      [hidden_first] stands for the positions of the two variables. *)
  Inductive tkind :=
  | TUnary (a : nat)
  | TBinary (a b : nat)
  | THidObs (hidden observed : nat) (hidden_first : bool).
  (** [BaseTuner] (BaseTuner.h:12-44): the factor, the positions stored by the
      [ImageFinder]. The cache [alpha_part] is not modelled:
      [alpha_part.emplace()] leaves its pointer null (BaseTuner.cpp:17), so the
      value is computed again at each call. *)
  Record btuner := mkBT { bt_fac : nat; bt_idx : list nat; bt_kind : tkind }.
  (** [CompositeTuner] (CompositeTuner.h): its elements are base tuners *)
  Inductive tuner := TBase (b : btuner) | TComp (l : list btuner).

  (** A random field and the factor objects. [r_h] gives the objects by address,
      [r_top] is the next address used by [std::make_shared].
      [r_const], [r_tun]: [const_factors] (FactorsConstManager.h),
      [tunable_factors] (FactorsTunableManager.h), [unordered_set]s of pointers;
      [r_tuners]: [tuners]. *)
  Record rst := mkR {
    r_h : nat -> func N;
    r_top : nat;
    r_g : gst;
    r_const : list nat;
    r_tun : list nat;
    r_tuners : list tuner
  }.
  Definition set_g (s : rst) (g : gst) : rst := mkR (r_h s) (r_top s) g (r_const s) (r_tun s) (r_tuners s).
  Definition set_h (s : rst) (h : nat -> func N) : rst := mkR h (r_top s) (r_g s) (r_const s) (r_tun s) (r_tuners s).
  Definition set_const (s : rst) (l : list nat) : rst := mkR (r_h s) (r_top s) (r_g s) l (r_tun s) (r_tuners s).
  Definition set_tun (s : rst) (l : list nat) : rst := mkR (r_h s) (r_top s) (r_g s) (r_const s) l (r_tuners s).
  Definition set_tuners (s : rst) (l : list tuner) : rst := mkR (r_h s) (r_top s) (r_g s) (r_const s) (r_tun s) l.

  (** a random field after its default constructor *)
  Definition r_empty (h : nat -> func N) (top : nat) : rst := mkR h top g_empty [] [] [].

  (** a method of the bases of the model that concerns only the graph *)
  Definition on_g {A} (m : gst -> out gst A) (s : rst) : out rst A :=
    match m (r_g s) with
    | Ret a g => Ret a (set_g s g)
    | Thr g => Thr (set_g s g)
    | Undef => Undef
    | NotNum => NotNum
    | NoStop => NoStop
    end.

  (** [std::make_shared]: a new object *)
  Definition alloc (s : rst) (f : func N) : nat * rst :=
    (r_top s, mkR (fupd (r_h s) (r_top s) f) (S (r_top s)) (r_g s) (r_const s) (r_tun s) (r_tuners s)).

  (** [try { ... } catch (...) {}] *)
  Definition try_catch (m : out rst unit) : out rst unit :=
    match m with Thr s => Ret tt s | o => o end.

  (** {1 Const factors} *)

  (** [addConstFactor] (FactorsConstManager.cpp:11-14) *)
  Definition add_const (d : option nat) (s : rst) : out rst unit :=
    do (_, s) <- on_g (fun g => add_distribution (r_h s) g d) s ;;
    Ret tt (match d with Some f => set_const s (r_const s ++ [f]) | None => s end).

  (** [copyConstFactor] (FactorsConstManager.cpp:16-21) *)
  Definition copy_const (f : nat) (s : rst) : out rst unit :=
    do (c, s) <- lift (factor_clone_transformed (r_h s f)) s ;;
    let (k, s) := alloc s c in add_const (Some k) s.

  (** [absorbConstFactors] (FactorsConstManager.h:42-55); the list is given in
      the order it is visited *)
  Definition absorb_const (l : list nat) (copy : bool) (s : rst) : out rst unit :=
    ofold (fun f s => try_catch (if copy then copy_const f s else add_const (Some f) s)) l s.

  (** {1 Tunable factors} *)

  Definition bases (t : tuner) : list btuner := match t with TBase b => [b] | TComp l => l end.

  (** [getTunableClusters] (FactorsTunableManager.cpp:25-43): the addresses of
      the factors; a tuner that is not composite gives one factor *)
  Definition tunable_clusters (s : rst) : list (list nat) :=
    map (fun t => map bt_fac (bases t)) (r_tuners s).

  (** [getWeight] (BaseTuner.h:23, CompositeTuner.h:25) *)
  Definition tuner_weight (h : nat -> func N) (t : tuner) : res N :=
    match t with
    | TBase b => exp_get_weight (h (bt_fac b))
    | TComp [] => UB
    | TComp (b :: _) => exp_get_weight (h (bt_fac b))
    end.
  (** [getWeights] (FactorsTunableManager.cpp:45-52) *)
  Definition get_weights (s : rst) : res (list N) := rmap (tuner_weight (r_h s)) (r_tuners s).

  (** [setWeight] (BaseTuner.h:22, CompositeTuner.cpp:42-46) *)
  Definition base_set_weight (w : N) (b : btuner) (s : rst) : out rst unit :=
    do (f, s) <- lift (exp_set_weight (r_h s (bt_fac b)) w) s ;;
    Ret tt (set_h s (fupd (r_h s) (bt_fac b) f)).
  Definition tuner_set_weight (t : tuner) (w : N) (s : rst) : out rst unit :=
    ofold (base_set_weight w) (bases t) s.
  (** [setWeights] (FactorsTunableManager.cpp:54-62) *)
  Definition set_weights (ws : list N) (s : rst) : out rst unit :=
    if length ws =? length (r_tuners s) then
      do (_, s) <- ofold (fun p s => tuner_set_weight (fst p) (snd p) s) (combine (r_tuners s) ws) s ;;
      Ret tt (set_g s (reset_belief (r_g s)))
    else Thr s.
  (** [set_ones] (FactorsTunableManager.cpp:188-194) *)
  Definition set_all_ones (s : rst) : out rst unit :=
    do (ws, s) <- lift (get_weights s) s ;; set_weights (map (fun _ => n1) ws) s.

  (** [getVariablesSet() == group] on the elements of a tuner
      (FactorsTunableManager.cpp:71-95); the set of variables is a list *)
  Definition tunes (h : nat -> func N) (group : list var) (t : tuner) : bool :=
    existsb (fun b => vset_eqb (g_set (f_group (h (bt_fac b)))) group) (bases t).
  (** [findTuner] (FactorsTunableManager.cpp:71-100): the position *)
  Definition find_tuner (s : rst) (group : list var) : res nat :=
    match find_pos (tunes (r_h s) group) (r_tuners s) with Some i => Ok i | None => Throw end.

  (** [makeTuner] (FactorsTunableManager.cpp:102-117), with the constructors of
      [BaseTuner] (BaseTuner.cpp:10-13), [UnaryTuner] (UnaryTuner.cpp:12-15) and
      [BinaryTuner] (BinaryTuner.cpp:13-26). [locate(..)->node] on a missing
      variable is undefined. *)
  Definition node_of (g : gst) (v : var) : res nat :=
    match locate g v with Some (a, _) => Ok a | None => UB end.
  Definition make_tuner (s : rst) (f : nat) : res btuner :=
    let vars := g_vars (r_g s) in
    match f_vars (r_h s f) with
    | [v] =>
        let* a := node_of (r_g s) v in
        let* fd := make_finder (r_h s f) vars in
        Ok (mkBT f (fd_idx fd) (TUnary a))
    | [v; w] =>
        let* a := node_of (r_g s) v in
        let* b := node_of (r_g s) w in
        let* fd := make_finder (r_h s f) vars in
        let* va := node_var (r_g s) a in
        let* vb := node_var (r_g s) b in
        if var_peqb v va && var_peqb w vb then Ok (mkBT f (fd_idx fd) (TBinary a b)) else Throw
    | _ => Throw
    end.

  (** [addTunableFactor] (FactorsTunableManager.cpp:119-143) *)
  Definition add_tunable (d : option nat) (share : option (list var)) (s : rst) : out rst unit :=
    do (_, s) <- on_g (fun g => add_distribution (r_h s) g d) s ;;
    match d with
    | None => Undef                         (* not reached: [addDistribution] throws *)
    | Some f =>
        do (t, s) <- lift (make_tuner s f) s ;;
        let s := set_tun s (r_tun s ++ [f]) in
        match share with
        | None => Ret tt (set_tuners s (r_tuners s ++ [TBase t]))
        | Some group =>
            do (i, s) <- lift (find_tuner s group) s ;;
            do (old, s) <- lift (vget (r_tuners s) i) s ;;
            let new := TComp (bases old ++ [t]) in
            let s := set_tuners s (lset (r_tuners s) i new) in
            do (w, s) <- lift (tuner_weight (r_h s) new) s ;;
            tuner_set_weight new w s
        end
    end.

  (** [copyTunableFactor] (FactorsTunableManager.cpp:145-150) *)
  Definition copy_tunable (f : nat) (share : option (list var)) (s : rst) : out rst unit :=
    do (c, s) <- lift (exp_copy (r_h s f)) s ;;
    let (k, s) := alloc s c in add_tunable (Some k) share s.

  (** [absorbTunableClusters] (FactorsTunableManager.cpp:152-186), given the
      clusters of the source *)
  Definition insert_tunable (copy : bool) (f : nat) (share : option (list var)) (s : rst) : out rst unit :=
    if copy then copy_tunable f share s else add_tunable (Some f) share s.
  Definition absorb_cluster (copy : bool) (c : list nat) (s : rst) : out rst unit :=
    match c with
    | [] => Undef
    | f :: r =>
        let vars := g_set (f_group (r_h s f)) in
        do (_, s) <- insert_tunable copy f None s ;;
        ofold (fun g s => insert_tunable copy g (Some vars) s) r s
    end.
  Definition absorb_clusters (copy : bool) (cs : list (list nat)) (s : rst) : out rst unit :=
    ofold (fun c s => try_catch (absorb_cluster copy c s)) cs s.
  (** [absorbTunableFactors] (FactorsTunableManager.h:101-114) *)
  Definition absorb_tunable (copy : bool) (l : list nat) (s : rst) : out rst unit :=
    ofold (fun f s => try_catch (insert_tunable copy f None s)) l s.

  (** {1 Gradient} *)

  (** [getGradientAlpha] (BaseTuner.cpp:15-29), of a base tuner *)
  Definition base_alpha (h : nat -> func N) (samples : list (list nat)) (b : btuner) : res N :=
    let coeff := (n1 / nofnat (length samples))%num in
    rfold (fun value comb => let* x := fd_find (mkFinder (h (bt_fac b)) (bt_idx b)) comb in Ok (value + coeff * x)%num) samples n0.

  (** [dotProduct] (BaseTuner.cpp:31-40): the iterator on the probabilities is
      dereferenced for each combination *)
  Fixpoint dot_loop (es : list (list nat * N)) (probs : list N) (dot : N) : res N :=
    match es with
    | [] => Ok dot
    | (_, img) :: r =>
        match probs with
        | [] => UB
        | p :: ps => dot_loop r ps (dot + p * img)%num
        end
    end.
  Definition dot_product (f : func N) (probs : list N) : res N :=
    let* es := f_each false f in dot_loop es probs n0.

  (** [UnaryTuner::getGradientBeta] (UnaryTuner.cpp:17-24) *)
  Definition unary_beta (h : nat -> func N) (e : env) (g : gst) (f a : nat) : res N :=
    let* m := incoming e g a in
    let* probs := get_probabilities m in
    dot_product (h f) probs.

  (** [marginal_distributions] (BinaryTuner.cpp:28-45): the pointers are
      gathered in an [unordered_set], visited in any order *)
  Definition outer_marginal (e : env) (g : gst) (a other : nat) : res (list N) :=
    match nd_merged (g_node g a) with
    | None => Throw
    | Some m =>
        let* mg := merged_unaries (permute (e_ord e (gsize g)) (Some m ::
          map (fun b => match act g a b with Some c => c_msg c | None => None end)
              (filter (fun b => negb (b =? other)) (keys (gsize g) (nd_act (g_node g a)))))) in
        get_probabilities mg
    end.
  (** [BinaryTuner::getGradientBeta] (BinaryTuner.cpp:48-65). The coefficient is
      the inverse of a sum: null, it gives NaN. *)
  Definition binary_beta (h : nat -> func N) (e : env) (g : gst) (f a b : nat) : res N :=
    let* ma := outer_marginal e g a b in
    let* mb := outer_marginal e g b a in
    let* es := f_each true (h f) in
    let* probs := rmap (fun p => let* i := vget (fst p) 0 in let* j := vget (fst p) 1 in
                                 let* x := vget ma i in let* y := vget mb j in Ok (snd p * x * y)%num) es in
    let total := fold_left nadd probs n0 in
    if ndz total then Nan
    else dot_product (h f) (map (fun p => (p * (n1 / total))%num) probs).

  (** [HiddenObservedTuner::getGradientBeta] (HiddenObservedTuner.cpp:25-43). The
      iterator to the evidence is dereferenced. *)
  Definition hidobs_beta (h : nat -> func N) (e : env) (g : gst) (f hid obs : nat) (hidden_first : bool) : res N :=
    let* m := incoming e g hid in
    let* probs := get_probabilities m in
    match g_ev g obs with
    | None => UB
    | Some o =>
        rfold (fun result p => let* x := f_find (h f) (if hidden_first then [fst p; o] else [o; fst p]) in Ok (result + snd p * x)%num)
              (combine (seq 0 (length probs)) probs) n0
    end.

  Definition base_beta (h : nat -> func N) (e : env) (g : gst) (b : btuner) : res N :=
    match bt_kind b with
    | TUnary a => unary_beta h e g (bt_fac b) a
    | TBinary x y => binary_beta h e g (bt_fac b) x y
    | THidObs x y first => hidobs_beta h e g (bt_fac b) x y first
    end.

  (** the sums of [CompositeTuner] (CompositeTuner.cpp:26-40) *)
  Definition tuner_sum (m : btuner -> res N) (t : tuner) : res N :=
    match t with
    | TBase b => m b
    | TComp l => rfold (fun grad b => let* x := m b in Ok (grad + x)%num) l n0
    end.

  (** [RandomField::getWeightsGradient_] (RandomField.cpp:30-51). The tasks only
      read the model and each one writes its own component: they are executed
      in order. *)
  Definition rf_gradient (e : env) (it : titer) (s : rst) : out rst (list N) :=
    do (_, s) <- (if existsb (fun a => is_some (g_ev (r_g s) a)) (seq 0 (gsize (r_g s)))
                  then on_g (remove_all_evidences e) s else Ret tt s) ;;
    let s := set_g s (reset_belief (r_g s)) in
    do (_, s) <- on_g (propagate (r_h s) e SUM) s ;;
    match g_pool (r_g s) with
    | None => Thr s
    | Some _ =>
        lift (let* samples := iter_samples it in
              rmap (fun t => let* a := tuner_sum (base_alpha (r_h s) samples) t in
                             let* b := tuner_sum (base_beta (r_h s) e (r_g s)) t in Ok (a - b)%num) (r_tuners s)) s
    end.

  (** a scope with a [ScopedPoolActivator], see [scoped_pool] *)
  Definition scoped {A} (n : nat) (body : rst -> out rst A) (s : rst) : out rst A :=
    do (_, s) <- on_g (set_pool_size n) s ;;
    match body s with
    | Ret a s => Ret a (set_g s (set_pool (r_g s) (Some 1)))
    | Thr s => Thr (set_g s (set_pool (r_g s) (Some 1)))
    | Undef => Undef
    | NotNum => NotNum
    | NoStop => NoStop
    end.
  (** [getWeightsGradient] (FactorsTunableManager.cpp:64-69) *)
  Definition weights_gradient (e : env) (it : titer) (threads : nat) (s : rst) : out rst (list N) :=
    scoped threads (rf_gradient e it) s.

  (** {1 Copies of models} *)

  (** [RandomField::absorb] (RandomField.cpp:12-28), and hence the copy
      constructor (RandomField.h): the source is another random field. Its
      containers are visited in the order of [e]. *)
  Definition rf_absorb (e : env) (src : rst) (copy : bool) (s : rst) : out rst unit :=
    do (_, s) <- absorb_const (e_ord e 0 (r_const src)) copy s ;;
    do (_, s) <- absorb_clusters copy (tunable_clusters src) s ;;
    ofold (fun a s =>
             do (v, s) <- lift (node_var (r_g src) a) s ;;
             match g_ev (r_g src) a with
             | None => Undef
             | Some k => on_g (fun g => set_evidence (r_h s) e g v k) s
             end)
          (e_ord e (gsize (r_g src)) (keys (gsize (r_g src)) (g_ev (r_g src)))) s.
  (** [Graph::absorb] (Graph.cpp:11-17): all the factors of the source are const
      factors of the graph *)
  Definition graph_absorb (e : env) (src : rst) (copy : bool) (s : rst) : out rst unit :=
    do (_, s) <- absorb_const (e_ord e 0 (g_all (r_g src))) copy s ;;
    ofold (fun a s =>
             do (v, s) <- lift (node_var (r_g src) a) s ;;
             match g_ev (r_g src) a with
             | None => Undef
             | Some k => on_g (fun g => set_evidence (r_h s) e g v k) s
             end)
          (e_ord e (gsize (r_g src)) (keys (gsize (r_g src)) (g_ev (r_g src)))) s.
End Train.
