(** The tasks of the gradients on the pool: every interleaving of their accesses
    gives the values computed one after the other *)
From Coq Require Import String List Arith Bool Lia.
From Verif Require Import Res Num Categoric Func FactorApi Graph GraphLemmas Belief BPRun Pool PoolProofs PoolComm Train Gibbs GibbsChain GibbsPool.
Import ListNotations.
Open Scope nat_scope.

Section GradientPool.
  Context {N : num}.
  Notation gst := (gst (N:=N)).

  (** what a task reads and writes: the sum that its thread keeps on its stack
      ([grad], CompositeTuner.cpp:27 and 35), the [alpha_part] of the elements of its
      tuner (BaseTuner.h:42-46), the receiver of its value
      (RandomField.cpp:43, ConditionalRandomField.cpp:144, 163) *)
  Record cell := mkCell { ce_sum : N; ce_alpha : nat -> option N; ce_res : N }.
  (** the memory shared by the tasks, the [k]-th tuner and the [k]-th receiver being
      those of the task [k]; [gm_bad]: a task did something undefined. The nodes, the
      messages and the factors are read only. *)
  Record gmemory := mkGM { gm_sum : nat -> N; gm_alpha : nat -> nat -> option N; gm_res : list N; gm_bad : bool }.
  Definition gact (k : nat) (F : cell -> option cell) : nat -> gmemory -> gmemory := fun tid m =>
    let bad := mkGM (gm_sum m) (gm_alpha m) (gm_res m) true in
    match nth_error (gm_res m) k with
    | None => bad
    | Some r =>
        match F (mkCell (gm_sum m tid) (gm_alpha m k) r) with
        | None => bad
        | Some c => mkGM (fupd (gm_sum m) tid (ce_sum c)) (fupd (gm_alpha m) k (ce_alpha c)) (lset (gm_res m) k (ce_res c)) (gm_bad m)
        end
    end.

  (** {1 The accesses of a task} *)
  Section Tasks.
    Variable h : nat -> func N.
    Variable e : env.
    Variable g : gst.
    Variable samples : list (list nat).

    (** [alpha_part.emplace()], [val = 0] (BaseTuner.cpp:17-18) *)
    Definition start_alpha (i : nat) (c : cell) : option cell := Some (mkCell (ce_sum c) (fupd (ce_alpha c) i (Some n0)) (ce_res c)).
    (** [value += coeff * finder.findImage(comb)] (BaseTuner.cpp:22) *)
    Definition add_alpha (i : nat) (b : btuner) (comb : list nat) (c : cell) : option cell :=
      match ce_alpha c i, fd_find (mkFinder (h (bt_fac b)) (bt_idx b)) comb with
      | Some v, Ok x => Some (mkCell (ce_sum c) (fupd (ce_alpha c) i (Some (v + n1 / nofnat (length samples) * x)%num)) (ce_res c))
      | _, _ => None
      end.
    (** [return alpha_part->value], added by a composite tuner (CompositeTuner.cpp:29) *)
    Definition take_alpha (comp : bool) (i : nat) (c : cell) : option cell :=
      match ce_alpha c i with
      | Some v => Some (mkCell (if comp then ce_sum c + v else v)%num (ce_alpha c) (ce_res c))
      | None => None
      end.
    Definition base_code (comp : bool) (p : nat * btuner) : list (cell -> option cell) :=
      start_alpha (fst p) :: map (add_alpha (fst p) (snd p)) samples ++ [take_alpha comp (fst p)].
    Definition no_sum (c : cell) : option cell := Some (mkCell n0 (ce_alpha c) (ce_res c)).
    Definition alpha_code (t : tuner) : list (cell -> option cell) :=
      match t with
      | TBase b => base_code false (0, b)
      | TComp l => no_sum :: concat (map (base_code true) (combine (seq 0 (length l)) l))
      end.
    (** the value of [getGradientBeta], which reads the model only, used by [w] *)
    Definition use_beta (t : tuner) (w : cell -> N -> N) (c : cell) : option cell :=
      match tuner_sum (base_beta h e g) t with
      | Ok b => Some (mkCell (ce_sum c) (ce_alpha c) (w c b))
      | _ => None
      end.

    (** the tasks of a random field (RandomField.cpp:41-46) *)
    Definition field_code (t : tuner) : list (cell -> option cell) :=
      alpha_code t ++ [use_beta t (fun c b => (ce_sum c - b)%num)].
    (** the tasks of a conditional random field (ConditionalRandomField.cpp:144-147) *)
    Definition alfas_code (t : tuner) : list (cell -> option cell) :=
      alpha_code t ++ [fun c => Some (mkCell (ce_sum c) (ce_alpha c) (ce_sum c))].
    (** and (ConditionalRandomField.cpp:161-166) *)
    Definition betas_code (coeff : N) (t : tuner) : list (cell -> option cell) :=
      [use_beta t (fun c b => (ce_res c + coeff * b)%num)].

    (** {1 A task alone} *)
    Fixpoint steps (l : list (cell -> option cell)) (c : cell) : option cell :=
      match l with [] => Some c | F :: r => match F c with Some c => steps r c | None => None end end.
    Lemma steps_app a b c : steps (a ++ b) c = match steps a c with Some c => steps b c | None => None end.
    Proof. revert c. induction a as [|F a IH]; intros c; simpl; auto. destruct (F c); auto. Qed.

    Lemma adds_ok b i l : forall c v x, ce_alpha c i = Some v ->
      rfold (fun value comb => let* x := fd_find (mkFinder (h (bt_fac b)) (bt_idx b)) comb in Ok (value + (n1 / nofnat (length samples)) * x)%num) l v = Ok x ->
      exists al, steps (map (add_alpha i b) l) c = Some (mkCell (ce_sum c) al (ce_res c)) /\ al i = Some x.
    Proof.
      induction l as [|comb l IH]; intros c v x A R; simpl in R.
      - injection R as <-. exists (ce_alpha c). destruct c; simpl; auto.
      - simpl. unfold add_alpha at 1. rewrite A. destruct (fd_find _ comb) as [y| | | |]; try discriminate. cbn [rbind] in R.
        destruct (IH (mkCell (ce_sum c) (fupd (ce_alpha c) i (Some (v + n1 / nofnat (length samples) * y)%num)) (ce_res c)) _ x (fupd_eq _ _ _) R) as (al & S & Q).
        exists al. split; auto.
    Qed.
    Lemma base_ok comp i b c x : base_alpha h samples b = Ok x ->
      exists al, steps (base_code comp (i, b)) c = Some (mkCell (if comp then ce_sum c + x else x)%num al (ce_res c)).
    Proof.
      intros R. unfold base_code. cbn [fst snd steps]. unfold start_alpha at 1. rewrite steps_app.
      destruct (adds_ok b i samples (mkCell (ce_sum c) (fupd (ce_alpha c) i (Some n0)) (ce_res c)) n0 x (fupd_eq _ _ _) R) as (al & S & Q).
      rewrite S. cbn [steps]. unfold take_alpha. simpl. rewrite Q. eauto.
    Qed.
    Lemma alpha_ok t c x : tuner_sum (base_alpha h samples) t = Ok x -> exists al, steps (alpha_code t) c = Some (mkCell x al (ce_res c)).
    Proof.
      destruct t as [b|l]; simpl; intros R.
      - destruct (base_ok false 0 b c x R) as (al & S). exists al. exact S.
      - assert (G : forall l k c x, rfold (fun grad b => let* y := base_alpha h samples b in Ok (grad + y)%num) l (ce_sum c) = Ok x ->
          exists al, steps (concat (map (base_code true) (combine (seq k (length l)) l))) c = Some (mkCell x al (ce_res c))).
        { clear. induction l as [|b l IH]; intros k c x R; simpl in R.
          - injection R as <-. exists (ce_alpha c). destruct c; auto.
          - cbn [length seq combine map concat]. rewrite steps_app. destruct (base_alpha h samples b) as [y| | | |] eqn:Q; try discriminate. cbn [rbind] in R.
            destruct (base_ok true k b c y Q) as (al & ->). simpl. destruct (IH (S k) (mkCell (ce_sum c + y)%num al (ce_res c)) x R) as (al' & ->). simpl. eauto. }
        destruct (G l 0 (mkCell n0 (ce_alpha c) (ce_res c)) x R) as (al & S). exists al. exact S.
    Qed.
    Lemma field_ok t c a b : tuner_sum (base_alpha h samples) t = Ok a -> tuner_sum (base_beta h e g) t = Ok b ->
      exists c', steps (field_code t) c = Some c' /\ ce_res c' = (a - b)%num.
    Proof.
      intros A B. unfold field_code. rewrite steps_app. destruct (alpha_ok t c a A) as (al & ->). simpl. unfold use_beta. rewrite B. eexists; split; reflexivity.
    Qed.
    Lemma alfas_ok t c a : tuner_sum (base_alpha h samples) t = Ok a -> exists c', steps (alfas_code t) c = Some c' /\ ce_res c' = a.
    Proof. intros A. unfold alfas_code. rewrite steps_app. destruct (alpha_ok t c a A) as (al & ->). simpl. eexists; split; reflexivity. Qed.
    Lemma betas_ok coeff t c b : tuner_sum (base_beta h e g) t = Ok b -> exists c', steps (betas_code coeff t) c = Some c' /\ ce_res c' = (ce_res c + coeff * b)%num.
    Proof. intros B. unfold betas_code. simpl. unfold use_beta. rewrite B. eexists; split; reflexivity. Qed.
  End Tasks.

  (** {1 Interleavings} *)
  Record gmeq (m m' : gmemory) : Prop := {
    gq_sum : forall t, gm_sum m' t = gm_sum m t;
    gq_alpha : forall k, gm_alpha m' k = gm_alpha m k;
    gq_res : gm_res m' = gm_res m;
    gq_bad : gm_bad m' = gm_bad m
  }.
  Lemma gmeq_refl m : gmeq m m.
  Proof. constructor; auto. Qed.
  Lemma gmeq_sym m m' : gmeq m m' -> gmeq m' m.
  Proof. intros [A B C D]. constructor; auto. Qed.
  Lemma gmeq_trans a b c : gmeq a b -> gmeq b c -> gmeq a c.
  Proof. intros [A B C D] [A' B' C' D']. constructor; congruence. Qed.
  (** a task: its position and its accesses *)
  Definition gtask := (nat * list (cell -> option cell))%type.
  Definition gcode (x : gtask) : task gmemory := map (gact (fst x)) (snd x).
  Definition gindep (x y : gtask) : Prop := fst x <> fst y.
  Lemma gindep_sym x y : gindep x y -> gindep y x.
  Proof. unfold gindep. auto. Qed.
  Lemma gact_proper k F t m m' : gmeq m m' -> gmeq (gact k F t m) (gact k F t m').
  Proof.
    intros [A B C D]. unfold gact. rewrite C. destruct (nth_error (gm_res m) k) as [r|]; [|constructor; simpl; auto]. rewrite A, B.
    destruct (F _) as [c|]; constructor; simpl; auto.
    - intros u. unfold fupd. destruct (u =? t); auto.
    - intros u. unfold fupd. destruct (u =? k); auto.
  Qed.
  Definition broken (m : gmemory) : gmemory := mkGM (gm_sum m) (gm_alpha m) (gm_res m) true.
  Definition goes (k : nat) (F : cell -> option cell) (tid : nat) (m : gmemory) : option cell :=
    match nth_error (gm_res m) k with Some r => F (mkCell (gm_sum m tid) (gm_alpha m k) r) | None => None end.
  Definition changed (k tid : nat) (c : cell) (m : gmemory) : gmemory :=
    mkGM (fupd (gm_sum m) tid (ce_sum c)) (fupd (gm_alpha m) k (ce_alpha c)) (lset (gm_res m) k (ce_res c)) (gm_bad m).
  Lemma gact_goes k F tid m : gact k F tid m = match goes k F tid m with Some c => changed k tid c m | None => broken m end.
  Proof. unfold gact, goes. destruct (nth_error (gm_res m) k); auto. Qed.
  Lemma goes_changed k l F a b c m : k <> l -> a <> b -> goes k F a (changed l b c m) = goes k F a m.
  Proof. intros D E. unfold goes, changed. simpl. rewrite nth_error_lset_ne, (fupd_ne (gm_sum m) b a), (fupd_ne (gm_alpha m) l k) by auto. auto. Qed.
  Lemma gact_comm k l F G a b m : k <> l -> a <> b -> gmeq (gact k F a (gact l G b m)) (gact l G b (gact k F a m)).
  Proof.
    intros D E. rewrite (gact_goes l G b m), (gact_goes k F a m).
    destruct (goes l G b m) as [c'|] eqn:QG, (goes k F a m) as [c|] eqn:QF; rewrite !gact_goes, ?goes_changed by auto;
    change (goes k F a (broken m)) with (goes k F a m); change (goes l G b (broken m)) with (goes l G b m); rewrite QF, QG; try (constructor; simpl; auto; fail).
    constructor; simpl; auto.
    - intros u. apply fupd_two; auto.
    - intros u. apply fupd_two; auto.
    - apply lset_lset; auto.
  Qed.
  Lemma gcode_proper x f t m m' : In f (gcode x) -> gmeq m m' -> gmeq (f t m) (f t m').
  Proof. intros I. apply in_map_iff in I as (F & <- & _). apply gact_proper. Qed.
  Lemma gcode_comm x y f g a b m : In f (gcode x) -> In g (gcode y) -> gindep x y -> a <> b -> gmeq (f a (g b m)) (g b (f a m)).
  Proof. intros I J D E. apply in_map_iff in I as (F & <- & _). apply in_map_iff in J as (G & <- & _). apply gact_comm; auto. Qed.

  (** a task executed alone *)
  Lemma gtask_ok tid k l : forall m r c, nth_error (gm_res m) k = Some r -> steps l (mkCell (gm_sum m tid) (gm_alpha m k) r) = Some c ->
    gmeq (gen_task gmemory tid (gcode (k, l)) m) (mkGM (fupd (gm_sum m) tid (ce_sum c)) (fupd (gm_alpha m) k (ce_alpha c)) (lset (gm_res m) k (ce_res c)) (gm_bad m)).
  Proof.
    unfold gen_task, gcode. cbn [fst snd]. induction l as [|F l IH]; intros m r c R S; simpl in S.
    - injection S as <-. simpl. constructor; simpl; auto.
      + intros u. unfold fupd. destruct (Nat.eqb_spec u tid); subst; auto.
      + intros u. unfold fupd. destruct (Nat.eqb_spec u k); subst; auto.
      + apply nth_error_ext'. intros u. destruct (Nat.eq_dec u k) as [->|]. rewrite nth_error_lset_eq; auto. apply nth_error_Some; congruence. rewrite nth_error_lset_ne; auto.
    - destruct (F _) as [c1|] eqn:Q; try discriminate. cbn [map fold_left].
      assert (L : k < length (gm_res m)) by (apply nth_error_Some; congruence).
      assert (E1 : gact k F tid m = mkGM (fupd (gm_sum m) tid (ce_sum c1)) (fupd (gm_alpha m) k (ce_alpha c1)) (lset (gm_res m) k (ce_res c1)) (gm_bad m)) by (unfold gact; rewrite R, Q; auto).
      rewrite E1. set (m1 := mkGM _ _ _ _). specialize (IH m1 (ce_res c1) c). eapply gmeq_trans; [apply IH|].
      + unfold m1. simpl. apply nth_error_lset_eq; auto.
      + unfold m1. simpl. rewrite !fupd_eq. destruct c1; auto.
      + unfold m1. simpl. constructor; simpl; auto.
        * intros u. unfold fupd. destruct (u =? tid); auto.
        * intros u. unfold fupd. destruct (u =? k); auto.
        * apply nth_error_ext'. intros u. destruct (Nat.eq_dec u k) as [->|].
          rewrite !nth_error_lset_eq; auto. rewrite length_lset; auto. rewrite !nth_error_lset_ne; auto.
  Qed.

  (** the tasks of a list of tuners, [code k t] being the accesses of the [k]-th *)
  Definition gtasks (code : tuner -> list (cell -> option cell)) (ts : list tuner) : list gtask := combine (seq 0 (length ts)) (map code ts).
  Lemma gtasks_indep (code : tuner -> list (cell -> option cell)) ts : ForallOrdPairs gindep (gtasks code ts).
  Proof.
    unfold gtasks. generalize 0. induction ts as [|t ts IH]; intros k; simpl; constructor; auto.
    apply Forall_forall. intros [i l] I. unfold gindep. simpl. apply in_combine_l in I. apply in_seq in I. lia.
  Qed.
  (** the values written, [old] being those before the tasks *)
  Lemma gen_all_ok n (code : tuner -> list (cell -> option cell)) (ts : list tuner) : forall k j m old new pre,
    gm_res m = pre ++ old -> length pre = k ->
    (forall i t x c, nth_error ts i = Some t -> nth_error new i = Some x -> nth_error old i = Some (ce_res c) ->
       exists c', steps (code t) c = Some c' /\ ce_res c' = x) ->
    length old = length ts -> length new = length ts ->
    let m' := gen_all gmemory gtask gcode n j (combine (seq k (length ts)) (map code ts)) m in
    gm_res m' = pre ++ new /\ gm_bad m' = gm_bad m.
  Proof.
    induction ts as [|t ts IH]; intros k j m old new pre R L C Lo Ln; simpl in *.
    - destruct old, new; try discriminate. auto.
    - destruct old as [|o old], new as [|x new]; try discriminate. injection Lo as Lo. injection Ln as Ln.
      assert (Nk : nth_error (gm_res m) k = Some o). { rewrite R, nth_error_app2, L, Nat.sub_diag by lia. auto. }
      destruct (C 0 t x (mkCell (gm_sum m (j mod n)) (gm_alpha m k) o) eq_refl eq_refl eq_refl) as (c' & St & X).
      pose proof (gtask_ok (j mod n) k (code t) m o c' Nk St) as [A B Cr D]. simpl in Cr, D.
      specialize (IH (S k) (S j) (gen_task gmemory (j mod n) (gcode (k, code t)) m) old new (pre ++ [x])). simpl in IH.
      rewrite D. replace (pre ++ x :: new) with ((pre ++ [x]) ++ new) by (rewrite <- app_assoc; auto). apply IH; auto.
      + rewrite <- Cr, R, X, <- L. clear. induction pre as [|p pre IH]; simpl; auto. f_equal; auto.
      + rewrite app_length. simpl. lia.
      + intros i t' x' c. apply (C (S i)).
  Qed.
End GradientPool.
