(** Concrete factors and concrete histories over the rationals, used in the
    examples and in the refutations *)
From Coq Require Import String List Arith Bool Lia Permutation QArith Qcanon.
From Verif Require Import Res Num Categoric Combs Func FuncProofs GroupProofs FactorProofs FactorApi Special SpecialProofs
  Graph GraphLemmas Clusters Belief Query GraphInv EvidInv BeliefInv GraphSpec Hist P_Categoric P_Factor.
Import ListNotations.
Open Scope nat_scope.

(** the factor on the variables [vs] with the listed values, zero elsewhere *)
Definition demo_group (vs : list var) : group := match group_ctor vs with Ok g => g | _ => group_single exA end.
Definition table (vs : list var) (l : list (list nat * QcNum)) : func QcNum :=
  match rfold (fun f p => m_set f (fst p) (snd p)) l (func_ctor (demo_group vs)) with
  | Ok f => f
  | _ => func_ctor (demo_group vs)
  end.

Lemma demo_group_built vs : Forall made vs -> built_group (demo_group vs).
Proof.
  intros M. unfold demo_group. destruct (group_ctor vs) eqn:E; try (apply bg_single; apply exA_made).
  eapply bg_ctor; eauto.
Qed.
Lemma m_set_exp {N : num} (f : func N) c x f' : built f -> m_set f c x = Ok f' -> f_exp f' = f_exp f.
Proof.
  intros B E. destruct (built_solid f B) as [[W _] _].
  destruct (m_set_spec f c x W) as [[_ Q]|(_ & _ & f1 & Q & _ & _ & X & _)]; rewrite Q in E; [discriminate|].
  injection E as <-. auto.
Qed.
Lemma table_built vs l : Forall made vs -> built (table vs l).
Proof.
  intros M. unfold table. pose proof (demo_group_built vs M) as BG. generalize dependent (demo_group vs). intros g BG.
  assert (G : forall l (f : func QcNum), built f -> f_exp f = None -> forall f', rfold (fun f p => m_set f (fst p) (snd p)) l f = Ok f' -> built f').
  { clear. induction l as [|p l IH]; simpl; intros f B E f' Q. injection Q as <-; auto.
    apply rbind_ok in Q as (f1 & Q1 & Q2). apply (IH f1); auto. eapply b_set; eauto. rewrite (m_set_exp _ _ _ _ B Q1); auto. }
  destruct (rfold _ l (func_ctor g)) eqn:Q; try (apply b_ctor; auto).
  eapply G; [| |exact Q]. apply b_ctor; auto. reflexivity.
Qed.

Section Runs.
  Context {N : num}.
  Variable H : nat -> func N.
  Notation gst := (gst (N:=N)).

  Definition after {A} (o : out gst A) : gst := match o with Ret _ s => s | Thr s => s | _ => g_empty end.
  Definition threw {A} (o : out gst A) : bool := match o with Thr _ => true | _ => false end.
  Definition returned {A} (o : out gst A) : bool := match o with Ret _ _ => true | _ => false end.

  Definition step (op : gop) (s : gst) : gst := after (call H env_id op s).
  Definition runs (ops : list gop) : gst := fold_left (fun s op => step op s) ops g_empty.
  Fixpoint sane (ops : list gop) (s : gst) : bool :=
    match ops with
    | [] => true
    | op :: r => (threw (call H env_id op s) || returned (call H env_id op s)) && sane r (step op s)
    end.

  Lemma env_id_ok : env_ok env_id.
  Proof. split; intros t l; apply Permutation_refl. Qed.

  Lemma runs_reach (G : spec -> gop -> Prop) : forall ops, (forall pre op post, ops = pre ++ op :: post -> G (sp_run (fvars H) pre) op) ->
    sane ops g_empty = true -> reach H G ops (runs ops).
  Proof.
    intros ops HGu SA. unfold runs.
    assert (K : forall ops pre s, (forall p op post, pre ++ ops = p ++ op :: post -> G (sp_run (fvars H) p) op) ->
      reach H G pre s -> sane ops s = true -> reach H G (pre ++ ops) (fold_left (fun s op => step op s) ops s)).
    { clear. induction ops as [|op ops IH]; simpl; intros pre s HGu R SA. rewrite app_nil_r; auto.
      apply andb_true_iff in SA as [S1 S2]. change (op :: ops) with ([op] ++ ops). rewrite app_assoc.
      apply IH; auto. rewrite <- app_assoc. auto.
      unfold step in *. apply orb_true_iff in S1 as [S1|S1]; destruct (call H env_id op s) eqn:Q; try discriminate; simpl.
      - eapply R_thr; eauto. apply env_id_ok.
      - eapply R_ret; eauto. apply env_id_ok. }
    apply (K ops [] g_empty); auto. constructor.
  Qed.

  (** operations that meet every condition on the histories *)
  Definition simple (op : gop) : bool :=
    match op with ORemove _ | ORemoveName _ | ORemoveSet _ | ORemoveNames _ => false | _ => true end.
  Lemma simple_ok A op : simple op = true -> no_failed_removal A op /\ separated_removal (fvars H) A op.
  Proof. destruct op; simpl; intros E; try discriminate; auto. Qed.
  Lemma runs_simple (G : spec -> gop -> Prop) ops : (forall A op, simple op = true -> G A op) -> forallb simple ops = true -> sane ops g_empty = true ->
    reach H G ops (runs ops).
  Proof.
    intros HS F SA. apply runs_reach; auto. intros pre op post ->. apply HS. rewrite forallb_forall in F. apply F.
    apply in_or_app. simpl; auto.
  Qed.
End Runs.

(** {1 A chain A - B - D, with D and E joined, and unary factors} *)
Definition exD : var := mkVar 4 "D" 2.
Definition exE : var := mkVar 5 "E" 2.
(** other objects with the name and the size of a variable, or with its name *)
Definition exA' : var := mkVar 6 "A" 2.
Definition exA3 : var := mkVar 7 "A" 3.
Lemma exD_made : made exD. Proof. exists 4, 2, "D"%string. reflexivity. Qed.
Lemma exE_made : made exE. Proof. exists 5, 2, "E"%string. reflexivity. Qed.
Lemma exA'_made : made exA'. Proof. exists 6, 2, "A"%string. reflexivity. Qed.
Lemma exA3_made : made exA3. Proof. exists 7, 3, "A"%string. reflexivity. Qed.

Definition demoH (f : nat) : func QcNum :=
  match f with
  | 0 => table [exA] [([0], q 1 1); ([1], q 3 1)]
  | 1 => table [exA; exB] [([0; 0], q 1 1); ([0; 1], q 2 1); ([0; 2], q 1 1); ([1; 0], q 4 1); ([1; 1], q 1 1); ([1; 2], q 5 1)]
  | 2 => table [exB; exD] [([0; 0], q 2 1); ([0; 1], q 1 1); ([1; 0], q 1 1); ([1; 1], q 3 1); ([2; 1], q 1 1)]
  | 3 => table [exE; exD] [([0; 0], q 2 1); ([1; 1], q 2 1); ([0; 1], q 1 1); ([1; 0], q 1 1)]
  | 4 => table [exC; exA'] [([0; 0], q 1 1)]
  | 5 => table [exA3] [([0], q 1 1)]
  | 6 => table [exB] [([0], q 1 1); ([1], q 1 1); ([2], q 2 1)]
  | 7 => table [exB; exA] [([0; 0], q 1 1)]
  | 8 => table [exC; exA] [([0; 0], q 3 1); ([0; 1], q 1 1); ([1; 0], q 2 1); ([1; 1], q 7 1)]
  | _ => table [exA; exB; exC] []
  end.
Lemma demoH_built f : built (demoH f).
Proof.
  do 9 (destruct f as [|f]; [apply table_built; repeat constructor; auto using exA_made, exB_made, exC_made, exD_made, exE_made, exA'_made, exA3_made|]).
  apply table_built; repeat constructor; auto using exA_made, exB_made, exC_made.
Qed.
