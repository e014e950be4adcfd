(** The theorems that do not ask for the laws of the numbers, on the floats of
    IEEE 754 (FloatNum.v): rounding, overflow, underflow, infinities and NaN
    included. Whatever the values in the factors and whatever the roundings, a
    call returns or throws an exception; the answers have the right size; asking
    again gives the same bits. *)
From Coq Require Import String List Arith Bool Lia Permutation Relations ZArith.
From Coq Require Import Floats.SpecFloat.
From Verif Require Import Res Num Categoric Combs Func FuncProofs GroupProofs FactorProofs FactorApi Special SpecialProofs
  Graph GraphLemmas Clusters Belief Query GraphInv EvidInv BeliefInv GraphSpec Hist Demo
  P_Categoric P_Factor P_Graph BeliefSpec BeliefHist BeliefDemo P_Belief JointSpec P_Pool SafeSpec Safe P_Safe
  Gibbs GibbsSpec Train TrainHist FieldSafeSpec FieldSafe P_FieldSafe CRF CRFHist CondSafeSpec CondSafe P_CondSafe FloatNum.
Import ListNotations.
Open Scope nat_scope.

Section P.
  Variable expf : spec_float -> spec_float.
  Notation F := (FloatNum expf).

  Section Graphs.
    Variable H : nat -> func F.
    Hypothesis HB : forall f, built (H f).
    Notation model := (sp_run (fvars H)).

    Theorem C54_float_calls_partial : forall ops s e op, reach H (safe_use H) ops s -> env_ok e -> safe_use H (model ops) op ->
      (exists a s', call H e op s = Ret a s') \/ (exists s', call H e op s = Thr s').
    Proof. exact (C54_numbers_partial H HB (fun _ => eq_refl)). Qed.
    Theorem C54_float_marginals_partial : forall ops s e v n, reach H (safe_use H) ops s -> env_ok e -> 1 <= n -> balanced H (model ops) ->
      In (vkey v) (map vkey (sp_vars (model ops))) ->
      exists p s', get_marginal H e v n s = Ret p s' /\ length p = vsize v.
    Proof. exact (C54_marginal_numbers_partial H HB (fun _ => eq_refl)). Qed.
    Theorem C54_float_map_partial : forall ops s e v n, reach H (safe_use H) ops s -> env_ok e -> 1 <= n -> balanced H (model ops) ->
      In v (sp_vars (model ops)) ->
      exists j s', get_map H e v n s = Ret j s' /\ j < vsize v.
    Proof. exact (C54_map_numbers_partial H HB (fun _ => eq_refl)). Qed.
    (** the answer to a query asked again is the same, bit by bit *)
    Theorem C26_float_repeated_query_partial : forall ops s e op k a s1 s2 n, reach H no_failed_removal ops s -> env_ok e -> query_kind op = Some k ->
      call H e op s = Ret a s1 -> asked H k s1 s2 -> call H e (with_threads op n) s2 = Ret a s2.
    Proof. exact (C26_repeated_query_partial H HB). Qed.
    (** [makeSamples] always returns samples in the range of the variables *)
    Theorem C34_float_samples : forall ops s draw e ceil10 ctx threads, reach H no_failed_removal ops s -> g_pool s = Some 1 -> env_ok e -> 1 <= threads ->
      exists samples s', make_samples H draw e ceil10 ctx threads s = Ret samples s' /\ length samples = x_samples ctx /\ Forall (sample_ok (model ops)) samples.
    Proof.
      intros ops s draw e ceil10 ctx n R PO E L. destruct (C34_samples_any_numbers H HB ops s draw e ceil10 ctx n R PO E L) as [(l & s' & Q & LN & V & _)|[_ [x X]]].
      exists l, s'. auto. discriminate X.
    Qed.
  End Graphs.

  Theorem C54_float_field_partial : forall (h : nat -> func F) top s e op, (forall f, built (h f)) -> rreach h top rsafe s ->
    rok op s -> rsafe s op -> env_ok e -> rcall e op s <> Undef /\ rcall e op s <> NotNum.
  Proof. exact (C54_field_numbers_partial (N:=F) (fun _ => eq_refl)). Qed.
  Theorem C54_float_conditional_partial : forall b (c : crf (N:=F)) e op, proper b c -> cok op -> csafe b (c_r c) (c_pos c) op -> env_ok e ->
    ccall e (c_pos c) op (c_r c) <> Undef /\ ccall e (c_pos c) op (c_r c) <> NotNum.
  Proof. exact (C54_conditional_numbers_partial (N:=F) (fun _ => eq_refl)). Qed.
End P.

(** {1 Examples} *)
Definition no_exp (x : spec_float) : spec_float := x.
Notation F := (FloatNum no_exp).
Definition ftable (vs : list var) (l : list (list nat * F)) : func F :=
  match rfold (fun f p => m_set f (fst p) (snd p)) l (func_ctor (demo_group vs)) with
  | Ok f => f
  | _ => func_ctor (demo_group vs)
  end.
Lemma ftable_built vs l : Forall made vs -> built (ftable vs l).
Proof.
  intros M. unfold ftable. pose proof (demo_group_built vs M) as BG. generalize dependent (demo_group vs). intros g BG.
  assert (G : forall l (f : func F), built f -> f_exp f = None -> forall f', rfold (fun f p => m_set f (fst p) (snd p)) l f = Ok f' -> built f').
  { clear. induction l as [|p l IH]; simpl; intros f B E f' Q. injection Q as <-; auto.
    apply rbind_ok in Q as (f1 & Q1 & Q2). apply (IH f1); auto. eapply b_set; eauto. rewrite (m_set_exp _ _ _ _ B Q1); auto. }
  destruct (rfold _ l (func_ctor g)) eqn:Q; try (apply b_ctor; auto).
  eapply G; [| |exact Q]. apply b_ctor; auto. reflexivity.
Qed.
(** a chain A - C - D with values that are rounded, and a factor of A that makes
    the product always null *)
Definition fH (f : nat) : func F :=
  match f with
  | 0 => ftable [exA; exC] [([0; 0], f32 1 10); ([0; 1], f32 7 10); ([1; 1], f32 1 3)]
  | 1 => ftable [exC; exD] [([0; 1], f32 1 7); ([1; 0], f32 3 10); ([1; 1], f32 1 10)]
  | 2 => ftable [exA; exC] [([0; 1], f32 1 1)]
  | 3 => ftable [exC; exD] [([0; 1], f32 1 1)]
  | _ => ftable [exA] [([1], f32 2 1)]
  end.
Lemma fH_built f : built (fH f).
Proof.
  do 4 (destruct f as [|f]; [apply ftable_built; repeat constructor; auto using exA_made, exC_made, exD_made|]).
  apply ftable_built; repeat constructor; auto using exA_made.
Qed.
Definition float_tale : list gop := [OAdd (Some 0); OAdd (Some 1); OMarginal exA 2; OSet exD 1; OMap exC 1].
Example float_tale_reach : reach fH (safe_use fH) float_tale (runs fH float_tale).
Proof. apply safely_reach; vm_compute; reflexivity. Qed.
Example float_tale_next : safe_use fH (sp_run (fvars fH) float_tale) (OMarginal exC 3).
Proof. apply safeb_ok. vm_compute. reflexivity. Qed.
Example float_tale_balanced : balanced fH (sp_run (fvars fH) float_tale).
Proof. apply balancedb_ok. vm_compute. reflexivity. Qed.
(** the answer is made of positive floats *)
Example float_tale_answer :
  match get_marginal fH env_id exC 3 (runs fH float_tale) with
  | Ret p _ => (length p =? 2) && forallb (fun x => SFltb (S754_zero false) x) p
  | _ => false
  end = true.
Proof. vm_compute. reflexivity. Qed.
(** 0/0: the model of the rationals stops ([zero_tale_nan] in P_Safe.v), the
    program goes on and answers NaN *)
Definition float_zero : list gop := [OAdd (Some 2); OAdd (Some 3); OAdd (Some 4)].
Example float_zero_reach : reach fH (safe_use fH) float_zero (runs fH float_zero).
Proof. apply safely_reach; vm_compute; reflexivity. Qed.
Example float_zero_answer :
  match get_marginal fH env_id exC 2 (runs fH float_zero) with
  | Ret p _ => (length p =? 2) && forallb (fun x => negb (SFeqb x x)) p
  | _ => false
  end = true.
Proof. vm_compute. reflexivity. Qed.

(** samples of the model whose weights are all null *)
Definition fdraws (t k : nat) : F := if Nat.even (t + k) then S754_zero false else n1.
Example float_zero_samples :
  match make_samples fH fdraws env_id (fun n => n) (mkCtx 3 None None) 2 (runs fH float_zero) with
  | Ret l _ => length l =? 3
  | _ => false
  end = true.
Proof. vm_compute. reflexivity. Qed.

Print Assumptions C54_float_calls_partial.
Print Assumptions C34_float_samples.
Print Assumptions C54_float_conditional_partial.
Print Assumptions C54_float_marginals_partial.
Print Assumptions C54_float_map_partial.
Print Assumptions C26_float_repeated_query_partial.
Print Assumptions C54_float_field_partial.
