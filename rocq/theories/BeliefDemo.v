(** Tests, with their correctness, of the hypotheses of the theorems on the
    queries, and concrete models for the examples and the refutations *)
From Coq Require Import String List Arith Bool Lia Permutation Relations QArith Qcanon.
From Verif Require Import Res Num Categoric Combs Func FuncProofs GroupProofs FactorProofs FactorApi Special SpecialProofs
  Graph GraphLemmas Clusters Belief Query GraphInv EvidInv BeliefInv GraphSpec Hist P_Categoric P_Factor Demo P_Graph BeliefSpec.
Import ListNotations.
Open Scope nat_scope.

Lemma mem_var_spec v l : existsb (same_instance v) l = true <-> In v l.
Proof.
  rewrite existsb_exists. split.
  - intros (w & I & E). apply same_instance_spec in E. subst; auto.
  - intros I. exists v. split; auto. apply same_instance_spec; auto.
Qed.

Section Tests.
  Context {N : num} (OK : num_ok N).
  Variable H : nat -> func N.

  Definition hiddenb (A : spec) (v : var) : bool := existsb (same_instance v) (sp_vars A) && negb (is_obs A v).
  Lemma hiddenb_spec A v : hiddenb A v = true <-> hidden A v.
  Proof.
    unfold hiddenb, hidden, is_obs. rewrite andb_true_iff, mem_var_spec, negb_true_iff. destruct (sp_evidence A v); split; intros [? ?]; split; auto; discriminate.
  Qed.
  Lemma hiddenb_ok A v : hiddenb A v = true -> hidden A v.
  Proof. apply hiddenb_spec. Qed.
  (** the pairs of hidden variables joined by a factor *)
  Definition edges (A : spec) : list (var * var) :=
    flat_map (fun f => match f_vars (H f) with [v; w] => if hiddenb A v && hiddenb A w then [(v, w)] else [] | _ => [] end) (sp_facs A).
  Lemma edges_spec A v w : hidden_edge H A v w <-> In (v, w) (edges A) \/ In (w, v) (edges A).
  Proof.
    unfold hidden_edge, joins, fv, edges. rewrite !in_flat_map. split.
    - intros (Hv & Hw & f & If & [E|E]); [left|right]; exists f; (split; [auto|]); rewrite E; apply hiddenb_spec in Hv, Hw; rewrite Hv, Hw; simpl; auto.
    - intros [(f & If & Q)|(f & If & Q)]; destruct (f_vars (H f)) as [|a [|b [|]]] eqn:E; try contradiction;
        destruct (hiddenb A a) eqn:Ha; try contradiction; destruct (hiddenb A b) eqn:Hb; try contradiction; simpl in Q; destruct Q as [[= -> ->]|[]];
        apply hiddenb_spec in Ha, Hb; (split; [auto|split; [auto|]]); exists f; auto.
  Qed.

  Definition balancedb (A : spec) : bool := forallb (fun p => vsize (fst p) =? vsize (snd p)) (edges A).
  Lemma balancedb_ok A : balancedb A = true -> balanced H A.
  Proof.
    unfold balancedb. rewrite forallb_forall. intros Q v w E. apply edges_spec in E as [E|E]; apply Q, Nat.eqb_eq in E; simpl in E; auto.
  Qed.
  Definition positiveb (W : asg -> N) (A : spec) : bool := existsb (fun x => agrees A x && nltb n0 (W x)) (all_asg (sp_vars A)).
  Lemma positiveb_ok W A : positiveb W A = true -> positive W A.
  Proof. unfold positiveb. rewrite existsb_exists. intros (x & I & Q). apply andb_true_iff in Q as [Q1 Q2]. exists x. split; auto. split; auto. Qed.

  Definition symmetricb (A : spec) : bool :=
    forallb (fun f => match f_vars (H f) with
      | [v; w] => if hiddenb A v && hiddenb A w
                  then (vsize v =? vsize w) && forallb (fun i => forallb (fun j => neqb (fval (H f) [i; j]) (fval (H f) [j; i])) (seq 0 (vsize v))) (seq 0 (vsize v))
                  else true
      | _ => true
      end) (sp_facs A).
  Lemma symmetricb_ok A : symmetricb A = true -> symmetric H A.
  Proof.
    unfold symmetricb. rewrite forallb_forall. intros Q f v w (If & E) Hv Hw. specialize (Q f If).
    assert (G : forall a b, f_vars (H f) = [a; b] -> hidden A a -> hidden A b -> vsize a = vsize b /\ forall i j, i < vsize a -> j < vsize a -> fval (H f) [i; j] = fval (H f) [j; i]).
    { intros a b Eab Ha Hb. rewrite Eab in Q. apply hiddenb_spec in Ha, Hb. rewrite Ha, Hb in Q. simpl in Q. apply andb_true_iff in Q as [Q1 Q2].
      apply Nat.eqb_eq in Q1. split; auto. intros i j Li Lj. rewrite forallb_forall in Q2. specialize (Q2 i ltac:(apply in_seq; lia)).
      rewrite forallb_forall in Q2. specialize (Q2 j ltac:(apply in_seq; lia)). apply (ok_eqb N OK); auto. }
    unfold fv in E. destruct E as [E|E].
    - apply G; auto.
    - destruct (G w v E Hw Hv) as [G1 G2]. split; auto. intros i j Li Lj. apply G2; lia.
  Qed.
  Definition above_floorb (A : spec) : bool :=
    forallb (fun f => match f_vars (H f) with
      | [v; w] => if hiddenb A v && hiddenb A w
                  then forallb (fun i => forallb (fun j => negb (nltb (fval (H f) [i; j]) nfltmin)) (seq 0 (vsize w))) (seq 0 (vsize v))
                  else true
      | _ => true
      end) (sp_facs A).
  Lemma above_floorb_ok A : above_floorb A = true -> above_floor H A.
  Proof.
    unfold above_floorb. rewrite forallb_forall. intros Q f v w If E Hv Hw i j Li Lj. specialize (Q f If). unfold fv in E. rewrite E in Q.
    apply hiddenb_spec in Hv, Hw. rewrite Hv, Hw in Q. simpl in Q. rewrite forallb_forall in Q. specialize (Q i ltac:(apply in_seq; lia)).
    rewrite forallb_forall in Q. specialize (Q j ltac:(apply in_seq; lia)). apply negb_true_iff in Q. exact Q.
  Qed.

  (** repeated removal of the vertices with at most one neighbour *)
  Definition adjacent (es : list (var * var)) (v w : var) : bool :=
    existsb (fun p => (same_instance v (fst p) && same_instance w (snd p)) || (same_instance v (snd p) && same_instance w (fst p))) es.
  Lemma adjacent_spec es v w : adjacent es v w = true <-> In (v, w) es \/ In (w, v) es.
  Proof.
    unfold adjacent. rewrite existsb_exists. split.
    - intros ([a b] & I & Q). apply orb_true_iff in Q. rewrite !andb_true_iff, !same_instance_spec in Q. simpl in Q. destruct Q as [[-> ->]|[-> ->]]; auto.
    - intros [I|I]; eexists; (split; [exact I|]); apply orb_true_iff; rewrite !andb_true_iff, !same_instance_spec; auto.
  Qed.
  Fixpoint peel (fuel : nat) (es : list (var * var)) (vs : list var) : list var :=
    match fuel with
    | 0 => vs
    | S n => peel n es (filter (fun v => 1 <? length (filter (adjacent es v) vs)) vs)
    end.
  Definition forestb (A : spec) : bool := match peel (length (sp_vars A)) (edges A) (sp_vars A) with [] => true | _ => false end.

  Lemma ring_neighbours {T} (E : T -> T -> Prop) c x : ring E c -> In x c -> exists y z, In y c /\ In z c /\ y <> z /\ E y x /\ E x z.
  Proof.
    intros (L & ND & R) Ix. apply In_nth_error in Ix as [i Hi]. assert (Li : i < length c) by (apply nth_error_Some; congruence).
    set (nx := if S i =? length c then 0 else S i). set (pv := match i with 0 => length c - 1 | S j => j end).
    assert (Ln : nx < length c) by (unfold nx; destruct (Nat.eqb_spec (S i) (length c)); lia).
    assert (Lp : pv < length c) by (unfold pv; destruct i; lia).
    destruct (nth_error c nx) as [z|] eqn:Ez; [|apply nth_error_None in Ez; lia].
    destruct (nth_error c pv) as [y|] eqn:Ey; [|apply nth_error_None in Ey; lia].
    exists y, z. split; [eapply nth_error_In; eauto|]. split; [eapply nth_error_In; eauto|]. split.
    - intros ->. assert (H0 : pv = nx) by (apply (proj1 (NoDup_nth_error c) ND); auto; congruence).
      clear - H0 L Li. unfold pv, nx in *. destruct (Nat.eqb_spec (S i) (length c)); destruct i; lia.
    - split; [|apply (R i); auto]. apply (R pv); auto. rewrite <- Hi. f_equal. unfold pv. destruct i.
      + replace (S (length c - 1)) with (length c) by lia. rewrite Nat.eqb_refl. auto.
      + destruct (Nat.eqb_spec (S i) (length c)); lia.
  Qed.
  Lemma peel_ring A c n : ring (hidden_edge H A) c -> forall vs, NoDup vs -> incl c vs -> incl c (peel n (edges A) vs).
  Proof.
    intros R. induction n as [|n IH]; intros vs ND I; simpl; auto. apply IH. apply NoDup_filter; auto.
    intros x Ix. apply filter_In. split; auto. apply Nat.ltb_lt.
    destruct (ring_neighbours _ c x R Ix) as (y & z & Iy & Iz & NE & E1 & E2).
    apply edges_spec in E1, E2.
    assert (L : incl [y; z] (filter (adjacent (edges A) x) vs)).
    { intros u [<-|[<-|[]]]; apply filter_In; split; auto; apply adjacent_spec; tauto. }
    apply NoDup_incl_length in L; [simpl in L; lia|]. constructor. simpl. intros [Q|[]]; auto. constructor; auto. constructor.
  Qed.
  Lemma forestb_ok A : NoDup (sp_vars A) -> forestb A = true -> forall v, tree_around H A v.
  Proof.
    intros ND F v (c & R & _). unfold forestb in F.
    assert (I : incl c (sp_vars A)).
    { intros x Ix. destruct (ring_neighbours _ c x R Ix) as (y & z & _ & _ & _ & _ & (Hx & _)). apply Hx. }
    pose proof (peel_ring A c (length (sp_vars A)) R (sp_vars A) ND I) as Q. destruct (peel _ _ _); [|discriminate].
    destruct R as (L & _). destruct c as [|x c]; simpl in L; [lia|]. destruct (Q x (or_introl eq_refl)).
  Qed.

  (** the conditions on the histories *)
  Definition separatedb (A : spec) (vs : list var) : bool :=
    forallb (fun g => match f_vars (H g) with
      | [x; y] => let t x y := negb (existsb (same_key x) vs) || negb (sp_observed A y) || existsb (same_key y) vs in t x y && t y x
      | _ => true
      end) (sp_facs A).
  Lemma separatedb_ok A vs : separatedb A vs = true -> separated (fvars H) A vs.
  Proof.
    unfold separatedb, separated, fvars. rewrite forallb_forall. intros Q g x y Ig E Ex Oy. specialize (Q g Ig).
    destruct E as [E|E]; rewrite E in Q; apply andb_true_iff in Q as [Q1 Q2].
    - rewrite Ex, Oy in Q1. auto.
    - rewrite Ex, Oy in Q2. auto.
  Qed.
  Definition properb (A : spec) (op : gop) : bool :=
    match op with
    | ORemove v => separatedb A [v]
    | ORemoveName n => match sp_named A n with Some v => separatedb A [v] | None => true end
    | ORemoveSet vs => negb (fst (sp_removes A vs)) && separatedb A vs
    | ORemoveNames ns => match sp_names A ns with Some vs => negb (fst (sp_removes A (sp_dedup vs))) && separatedb A vs | None => true end
    | _ => match query_threads op with
           | Some n => (1 <=? n) && balancedb A && positiveb (weight_swapped H A) A
           | None => true
           end
    end.
  Lemma properb_ok A op : properb A op = true -> proper_use H A op.
  Proof.
    unfold proper_use, sound_query.
    destruct op; simpl; intros Q; (split; [|split]); auto;
      repeat match type of Q with _ && _ = true => apply andb_true_iff in Q as [Q ?] end;
      try (apply separatedb_ok; auto; fail); try (apply negb_true_iff; auto; fail);
      try (split; [apply Nat.leb_le; auto|split; [apply balancedb_ok; auto|apply positiveb_ok; auto]]; fail).
    - destruct (sp_named A n); auto. apply separatedb_ok; auto.
    - destruct (sp_names A ns); auto. apply andb_true_iff in Q as [Q _]. apply negb_true_iff; auto.
    - destruct (sp_names A ns); auto. apply andb_true_iff in Q as [_ Q]. apply separatedb_ok; auto.
  Qed.
  Fixpoint properly (ops : list gop) (A : spec) : bool :=
    match ops with [] => true | op :: r => properb A op && properly r (sp_next (fvars H) A op) end.
  Lemma properly_reach ops : properly ops spec_empty = true -> sane H ops g_empty = true -> reach H (proper_use H) ops (runs H ops).
  Proof.
    intros P S. apply runs_reach; auto. intros pre op post E. apply properb_ok. clear S.
    unfold sp_run. revert P. generalize spec_empty. revert ops E. induction pre as [|o pre IH]; intros ops E A P; subst ops; simpl in *.
    - apply andb_true_iff in P. tauto.
    - apply andb_true_iff in P as [_ P]. apply (IH (pre ++ op :: post)); auto.
  Qed.
End Tests.

(** {1 Factors} *)
Definition sym2 (v w : var) (a b c : QcNum) : func QcNum := table [v; w] [([0; 0], a); ([0; 1], b); ([1; 0], b); ([1; 1], c)].
Definition tiny : QcNum := Q2Qc (1 # (2 ^ 130)).
Definition tiny4 : QcNum := Q2Qc (1 # (2 ^ 128)).
Definition bH (f : nat) : func QcNum :=
  match f with
  | 0 => sym2 exA exC (q 2 1) (q 1 1) (q 3 1)
  | 1 => sym2 exC exD (q 1 1) (q 4 1) (q 2 1)
  | 2 => table [exA] [([0], q 1 1); ([1], q 3 1)]
  | 3 => sym2 exE exC (q 1 2) (q 5 1) (q 1 1)
  | 4 => sym2 exA exD (q 3 1) (q 1 1) (q 2 1)
  | 5 => table [exA; exC] [([0; 0], q 4 1); ([0; 1], q 1 1); ([1; 0], q 2 1); ([1; 1], q 3 1)]
  | 6 => sym2 exA exC tiny tiny tiny4
  | 7 => table [exA; exB] [([0; 0], q 1 1); ([0; 1], q 2 1); ([0; 2], q 1 1); ([1; 0], q 4 1); ([1; 1], q 1 1); ([1; 2], q 5 1)]
  | 8 => table [exA; exC] [([0; 0], q 1 1); ([0; 1], q 5 1); ([1; 0], q 2 1); ([1; 1], q 3 1)]
  | _ => table [exD] [([0], q 1 1); ([1], q 1 1)]
  end.
Lemma bH_built f : built (bH f).
Proof.
  do 9 (destruct f as [|f]; [apply table_built; repeat constructor; auto using exA_made, exB_made, exC_made, exD_made, exE_made|]).
  apply table_built; repeat constructor; auto using exD_made.
Qed.

(** answers that can be compared by computation *)
Definition answers (o : out (gst (N:=QcNum)) (list QcNum)) (l : list QcNum) : bool :=
  match o with Ret x _ => (length x =? length l) && forallb (fun p => neqb (fst p) (snd p)) (combine x l) | _ => false end.
Definition undefd {A} (o : out (gst (N:=QcNum)) A) : bool := match o with Undef => true | _ => false end.
Definition exact_marginals (A : spec) (v : var) : list QcNum := map (marginal (weight bH A) A v) (seq 0 (vsize v)).
Lemma answers_sound o l : answers o l = true -> exists s', o = Ret l s'.
Proof.
  destruct o as [x s'| | | |]; simpl; try discriminate. intros Q. exists s'. f_equal. apply andb_true_iff in Q as [Q1 Q2]. apply Nat.eqb_eq in Q1.
  revert l Q1 Q2. induction x as [|a x IH]; intros [|b l] L F; simpl in *; try discriminate; auto.
  apply andb_true_iff in F as [F1 F2]. f_equal; auto. apply (ok_eqb QcNum QcNum_ok); auto.
Qed.
Lemma answers_complete l s' : answers (Ret l s') l = true.
Proof.
  simpl. rewrite Nat.eqb_refl. simpl. induction l as [|a l IH]; simpl; auto. rewrite IH, andb_true_r. apply (ok_eqb QcNum QcNum_ok); auto.
Qed.
Lemma answers_different o l : returned o = true -> answers o l = false -> exists l' s', o = Ret l' s' /\ l' <> l.
Proof.
  destruct o as [x s'| | | |] eqn:E; simpl; try discriminate. intros _ Q. exists x, s'. split; auto. intros ->. pose proof (answers_complete l s') as R. simpl in R. congruence.
Qed.
Lemma undefd_spec {A} (o : out (gst (N:=QcNum)) A) : undefd o = true -> o = Undef.
Proof. destruct o; simpl; intros; try discriminate; auto. Qed.
