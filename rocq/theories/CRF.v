(** Model of the conditional random fields.
    Sources: /repo/src/src/model/ConditionalRandomField.cpp,
    /repo/src/src/model/HiddenObservedTuner.cpp. *)
From Coq Require Import String List Arith Bool.
From Verif Require Import Res Num Categoric Func Special Graph Belief Query Gibbs Train.
Import ListNotations.
Open Scope nat_scope.

Section CRF.
  Context {N : num}.
  Notation gst := (gst (N:=N)).
  Notation rst := (rst (N:=N)).

  (** the order in which the map of the evidences is visited *)
  Definition evidence_order (e : env) (g : gst) : list nat := e_ord e (gsize g) (keys (gsize g) (g_ev g)).
  (** the order in which the set returned by [getObservedVariables] is visited: the
      set is another container, filled from the map (StateAware.cpp:36-42) *)
  Definition observed_order (e : env) (g : gst) : list var := permute (e_ord e (S (gsize g))) (observed_variables e g).

  (** [find_positions] (ConditionalRandomField.cpp:20-30): [std::find] on vectors of
      pointers *)
  Definition find_positions (all to_find : list var) : list nat :=
    map (fun v => match find_pos (var_peqb v) all with Some k => k | None => length all end) to_find.

  (** a conditional random field: [evidence_vars_positions] is constant *)
  Record crf := mkC { c_r : rst; c_pos : list nat }.

  (** {1 Construction} *)

  Definition observed_at (g : gst) (v : var) : option nat :=
    match find_node g v with
    | Some a => match g_ev g a with Some _ => Some a | None => None end
    | None => None
    end.

  (** [replaceIfNeeded] (ConditionalRandomField.cpp:80-119): the tuner to put in
      place of a base tuner; with the constructor of [HiddenObservedTuner]
      (HiddenObservedTuner.cpp:11-23) *)
  Definition replace_if_needed (s : rst) (b : btuner) : res btuner :=
    let g := r_g s in
    match f_vars (r_h s (bt_fac b)) with
    | [v] => match observed_at g v with Some _ => Throw | None => Ok b end
    | [v; w] =>
        match observed_at g v, observed_at g w with
        | None, None => Ok b
        | Some _, Some _ => Throw
        | None, Some o =>
            match find_node g v with
            | None => UB
            | Some hid =>
                let* fd := make_finder (r_h s (bt_fac b)) (g_vars g) in
                let* vo := node_var g o in
                Ok (mkBT (bt_fac b) (fd_idx fd) (THidObs hid o (negb (var_peqb v vo))))
            end
        | Some o, None =>
            match find_node g w with
            | None => UB
            | Some hid =>
                let* fd := make_finder (r_h s (bt_fac b)) (g_vars g) in
                let* vo := node_var g o in
                Ok (mkBT (bt_fac b) (fd_idx fd) (THidObs hid o (negb (var_peqb v vo))))
            end
        end
    | _ => Ok b
    end.
  Definition replace_tuner (s : rst) (t : tuner) : res tuner :=
    match t with
    | TBase b => let* b' := replace_if_needed s b in Ok (TBase b')
    | TComp l => let* l' := rmap (replace_if_needed s) l in Ok (TComp l')
    end.

  (** [absorb] (ConditionalRandomField.cpp:52-78). The tuners replaced before an
      exception do not matter: the object is not constructed. *)
  Definition crf_absorb (e : env) (src : rst) (copy : bool) (s : rst) : out rst unit :=
    match keys (gsize (r_g src)) (g_ev (r_g src)) with
    | [] => Thr s
    | _ =>
        do (_, s) <- absorb_const (e_ord e 0 (r_const src)) copy s ;;
        do (_, s) <- absorb_clusters copy (tunable_clusters src) s ;;
        do (_, s) <-
          ofold (fun a s =>
                   do (v, s) <- lift (node_var (r_g src) a) s ;;
                   match g_ev (r_g src) a with
                   | None => Undef
                   | Some k =>
                       do (w, s) <- lift (find_variable (r_g s) (vname v)) s ;;
                       on_g (fun g => set_evidence (r_h s) e g w k) s
                   end)
                (evidence_order e (r_g src)) s ;;
        do (ts, s) <- lift (rmap (replace_tuner s) (r_tuners s)) s ;;
        Ret tt (set_tuners s ts)
    end.

  (** the constructor from a random field (ConditionalRandomField.cpp:41-50); the
      copy constructor (33-39) is the same with [copy = false]. The positions are
      those of the variables of the source. *)
  Definition crf_ctor (e : env) (src : rst) (copy : bool) : out rst crf :=
    let pos := find_positions (g_vars (r_g src)) (observed_order e (r_g src)) in
    do (_, s) <- crf_absorb e src copy (r_empty (r_h src) (r_top src)) ;;
    Ret (mkC s pos) s.

  (** {1 Evidences} *)

  (** [setEvidences] (ConditionalRandomField.cpp:121-133) *)
  Definition set_evidences (e : env) (values : list nat) (s : rst) : out rst unit :=
    let ks := evidence_order e (r_g s) in
    if length values =? length ks then
      ofold (fun p s =>
               do (v, s) <- lift (node_var (r_g s) (fst p)) s ;;
               on_g (fun g => set_evidence (r_h s) e g v (snd p)) s)
            (combine ks values) s
    else Thr s.

  (** {1 Gradient} *)

  (** the evidences of a sample (ConditionalRandomField.cpp:165-171) *)
  Definition sample_evidences (e : env) (pos comb : list nat) (s : rst) : out rst unit :=
    let ks := evidence_order e (r_g s) in
    ofold (fun p s =>
             do (v, s) <- lift (node_var (r_g s) (snd p)) s ;;
             do (i, s) <- lift (vget pos (fst p)) s ;;
             do (x, s) <- lift (vget comb i) s ;;
             on_g (fun g => set_evidence (r_h s) e g v x) s)
          (combine (seq 0 (length ks)) ks) s.
  (** the loop on the samples (ConditionalRandomField.cpp:162-176); each sample has
      its own environment *)
  Fixpoint crf_betas (es : nat -> env) (pos : list nat) (coeff : N) (k : nat) (samples : list (list nat)) (betas : list N) (s : rst) : out rst (list N) :=
    match samples with
    | [] => Ret betas s
    | comb :: rest =>
        do (_, s) <- sample_evidences (es k) pos comb s ;;
        do (_, s) <- on_g (propagate (r_h s) (es k) SUM) s ;;
        match g_pool (r_g s) with
        | None => Thr s
        | Some _ =>
            do (bs, s) <- lift (rmap (fun p => let* b := tuner_sum (base_beta (r_h s) (es k) (r_g s)) (fst p) in Ok (snd p + coeff * b)%num)
                                     (combine (r_tuners s) betas)) s ;;
            crf_betas es pos coeff (S k) rest bs s
        end
    end.
  (** [getWeightsGradient_] (ConditionalRandomField.cpp:135-185). With no samples the
      coefficient is not used. *)
  Definition crf_gradient (es : nat -> env) (pos : list nat) (it : titer) (s : rst) : out rst (list N) :=
    match g_pool (r_g s) with
    | None => Thr s
    | Some _ =>
        do (samples, s) <- lift (iter_samples it) s ;;
        do (alfas, s) <- lift (rmap (tuner_sum (base_alpha (r_h s) samples)) (r_tuners s)) s ;;
        do (betas, s) <- crf_betas es pos (n1 / nofnat (iter_size it))%num 0 samples (map (fun _ => n0) (r_tuners s)) s ;;
        Ret (map (fun p => (fst p - snd p)%num) (combine alfas betas)) s
    end.

  (** {1 Generation of training sets} *)
  Section MakeTrainSet.
    (** the numbers drawn in each call of [makeSamples], [floorf], and the integers
        given by [ceil(variables / 10)], see Gibbs.v *)
    Variable draw : nat -> nat -> nat -> N.
    Variable floorf : N -> nat.
    Variable ceil10 : nat -> nat.

    (** [emplace_samples] (ConditionalRandomField.cpp:197-202), at the [k]-th call *)
    Definition emplace_samples (es : nat -> env) (ctx : sctx) (threads : nat) (k : nat) (ev : list nat) (s : rst) : out rst (list (list nat)) :=
      do (_, s) <- set_evidences (es k) ev s ;;
      on_g (make_samples (r_h s) (draw k) (es k) ceil10 ctx threads) s.

    (** [delta] times [++] *)
    Fixpoint range_advance (n : nat) (r : range) : res range :=
      match n with
      | 0 => Ok r
      | S n => let* r := range_incr r in range_advance n r
      end.

    (** the loops (ConditionalRandomField.cpp:208-226). [body k c] is the call for the
        combination [c], at the [k]-th turn. *)
    Fixpoint all_loop (body : nat -> list nat -> rst -> out rst (list (list nat))) (n : nat) (cs : list (list nat)) (acc : list (list nat)) (s : rst)
      : out rst (list (list nat)) :=
      match cs with
      | [] => Ret acc s
      | c :: r => do (x, s) <- body n c s ;; all_loop body (S n) r (acc ++ x) s
      end.
    Fixpoint some_loop (body : nat -> list nat -> rst -> out rst (list (list nat))) (fuel n delta max k : nat) (r : range) (acc : list (list nat)) (s : rst)
      : out rst (list (list nat)) :=
      if k <? max then
        match fuel with
        | 0 => NoStop
        | S fuel =>
            do (c, s) <- lift (range_get r) s ;;
            do (x, s) <- body n c s ;;
            if max <=? k + delta then Ret (acc ++ x) s
            else
              do (r, s) <- lift (range_advance delta r) s ;;
              some_loop body fuel (S n) delta max (k + delta) r (acc ++ x) s
        end
      else Ret acc s.

    (** [makeTrainSet] (ConditionalRandomField.cpp:187-229). The integer division by
        zero is undefined. *)
    Definition make_crf_train_set (e : env) (es : nat -> env) (ctx : sctx) (percentage : N) (threads : nat) (s : rst) : out rst (list (list nat)) :=
      if nltb n1 percentage || nltb percentage n0 then Thr s
      else
        do (g, s) <- lift (group_ctor (observed_order e (r_g s))) s ;;
        let sizes := map vsize (g_soup g) in
        let body := emplace_samples es ctx threads in
        if neqb n1 percentage then
          do (cs, s) <- lift (range_all sizes) s ;; all_loop body 0 cs [] s
        else
          let max := group_size g in
          let approx := floorf (nofnat max * percentage)%num in
          match approx with
          | 0 => Undef
          | _ => some_loop body max 0 (max / approx) max 0 (range_of_group g) [] s
          end.
  End MakeTrainSet.
End CRF.
