(** Concrete random fields over the rationals, used in the examples and in the
    refutations about training *)
From Coq Require Import String List Arith Bool Lia Permutation QArith Qcanon.
From Verif Require Import Res Num Categoric Combs Func FuncProofs GroupProofs FactorProofs FactorApi Special SpecialProofs
  Graph GraphLemmas Clusters Belief Query GraphInv EvidInv BeliefInv GraphSpec Hist Train TrainHist P_Categoric P_Factor Demo.
Import ListNotations.
Open Scope nat_scope.

Section RRuns.
  Context {N : num}.
  Notation rst := (rst (N:=N)).
  Notation rop := (rop (N:=N)).
  Definition rafter {A} (d : rst) (o : out rst A) : rst := match o with Ret _ s => s | Thr s => s | _ => d end.
  Definition rdone {A} (o : out rst A) : bool := match o with Ret _ _ => true | Thr _ => true | _ => false end.
  Definition rthrew {A} (o : out rst A) : bool := match o with Thr _ => true | _ => false end.
  Definition rstep (op : rop) (s : rst) : rst := rafter s (rcall env_id op s).
  Definition rruns (s : rst) (ops : list rop) : rst := fold_left (fun s op => rstep op s) ops s.
  (** the operations used in the examples, and a test of [rok] *)
  Definition rokb (op : rop) (s : rst) : bool :=
    match op with
    | RConst None | RTun None _ => true
    | RConst (Some f) => f <? r_top s
    | RTun (Some f) _ => (f <? r_top s) && match f_exp (r_h s f) with Some _ => true | None => false end
    | RWeights _ | ROnes | RGradient _ _ => true
    | RGraph op => negb (is_add op)
    | _ => false
    end.
  Fixpoint rsane (ops : list rop) (s : rst) : bool :=
    match ops with
    | [] => true
    | op :: r => rokb op s && rdone (rcall env_id op s) && rsane r (rstep op s)
    end.
  Lemma rokb_ok op s : rokb op s = true -> rok op s.
  Proof.
    destruct op as [f|[f|]|f|cp l|[f|] sh|f sh|cp l|cp cs|ws| |it n|op]; simpl; try discriminate; auto.
    - apply Nat.ltb_lt.
    - intros E. apply andb_true_iff in E as [E1 E2]. apply Nat.ltb_lt in E1. split; auto. destruct (f_exp (r_h s f)); discriminate.
    - apply negb_true_iff.
  Qed.
  Lemma rruns_reach h top (G : rst -> rop -> Prop) ops : (forall s op, G s op) -> forall s, rreach h top G s -> rsane ops s = true -> rreach h top G (rruns s ops).
  Proof.
    intros HGu. induction ops as [|op ops IH]; intros s R SA; auto.
    cbn [rsane] in SA. apply andb_true_iff in SA as [SA SB]. apply andb_true_iff in SA as [S1 S2]. apply rokb_ok in S1.
    change (rreach h top G (rruns (rstep op s) ops)). apply IH; auto.
    unfold rstep. destruct (rcall env_id op s) eqn:Q; try discriminate S2; simpl.
    - eapply RR_ret; eauto. apply env_id_ok.
    - eapply RR_thr; eauto. apply env_id_ok.
  Qed.
End RRuns.

Lemma table_exp vs l : Forall made vs -> f_exp (table vs l) = None.
Proof.
  intros M. unfold table. pose proof (demo_group_built vs M) as BG. generalize dependent (demo_group vs). intros g BG.
  assert (G : forall l (f : func QcNum), built f -> f_exp f = None -> forall f', rfold (fun f p => m_set f (fst p) (snd p)) l f = Ok f' -> f_exp f' = None).
  { clear. induction l as [|p l IH]; simpl; intros f B E f' Q. injection Q as <-; auto.
    apply rbind_ok in Q as (f1 & Q1 & Q2). assert (X1 : f_exp f1 = None) by (rewrite (m_set_exp _ _ _ _ B Q1); auto).
    apply (IH f1); auto. eapply b_set; eauto. }
  destruct (rfold _ l (func_ctor g)) eqn:Q; auto. eapply G; [| |exact Q]. apply b_ctor; auto. reflexivity.
Qed.

(** the tables of [demoH], as exponential factors with weight 2 at the even
    addresses, as plain factors at the odd ones *)
Definition table_at (k : nat) : func QcNum := demoH k.
Lemma table_at_exp k : f_exp (table_at k) = None.
Proof.
  unfold table_at, demoH. do 9 (destruct k as [|k]; [apply table_exp; repeat constructor; auto using exA_made, exB_made, exC_made, exD_made, exE_made, exA'_made, exA3_made|]).
  apply table_exp; repeat constructor; auto using exA_made, exB_made, exC_made.
Qed.
Definition trH (f : nat) : func QcNum :=
  if Nat.even f then match exp_ctor (table_at (Nat.div2 f)) (q 2 1) with Ok e => e | _ => table_at (Nat.div2 f) end
  else table_at (Nat.div2 f).
Lemma trH_built f : built (trH f).
Proof.
  unfold trH. destruct (Nat.even f); [|apply demoH_built]. destruct (exp_ctor (table_at (Nat.div2 f)) (q 2 1)) eqn:E; try apply demoH_built.
  eapply b_exp; [| |exact E]. apply demoH_built. apply table_at_exp.
Qed.
