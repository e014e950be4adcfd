(** Property C54: no call of the API goes through undefined behaviour (accesses
    out of bounds, null pointers, dangling pointers), whatever the values of the
    factors. The histories are any sequences of calls that respect [safe_use]
    (SafeSpec.v); each condition of [safe_use] is needed, see the end. *)
From Coq Require Import String List Arith Bool Lia Permutation Relations QArith Qcanon.
From Verif Require Import Res Num Categoric Combs Func FuncProofs GroupProofs FactorProofs FactorApi Special SpecialProofs
  Graph GraphLemmas Clusters Belief Query GraphInv EvidInv BeliefInv BigOp Tree Cycle BPStep BPRun GraphSpec Hist
  P_Categoric P_Factor Demo P_Graph BeliefSpec Sums Exact BeliefHist Queries Rebuild BeliefDemo P_Belief Parts JointSpec Joint P_Joint P_Pool SafeSpec Safe.
Import ListNotations.
Open Scope nat_scope.

Section P.
  Context {N : num} (OK : num_ok N).
  Variable H : nat -> func N.
  (** the factor objects are any objects the API can build *)
  Hypothesis HB : forall f, built (H f).
  Notation gst := (gst (N:=N)).
  Implicit Types s : gst.
  Local Notation HSd := (built_solids H HB).
  Notation model := (sp_run (fvars H)).

  (** for all histories, iteration orders, schedules and calls *)
  Theorem C54_no_undefined_behaviour_partial : forall ops s e op, reach H (safe_use H) ops s -> env_ok e -> safe_use H (model ops) op ->
    call H e op s <> Undef.
  Proof. intros ops s e op R E G. apply (reach_defined H HSd ops s e op R E G). Qed.

  (** a call returns, throws an exception, or computes 0/0 *)
  Theorem C54_outcomes_partial : forall ops s e op, reach H (safe_use H) ops s -> env_ok e -> safe_use H (model ops) op ->
    (exists a s', call H e op s = Ret a s') \/ (exists s', call H e op s = Thr s') \/ call H e op s = NotNum.
  Proof.
    intros ops s e op R E G. pose proof (C54_no_undefined_behaviour_partial ops s e op R E G) as D.
    pose proof (C29_calls_terminate H HB (safe_use H) ops s e op R E) as T.
    destruct (call H e op s) as [a s'|s'| | |]; eauto; congruence.
  Qed.
  (** in an arithmetic that goes on after 0/0 (IEEE 754: the result is NaN) a call
      returns or throws an exception *)
  Theorem C54_numbers_partial : (forall x : N, ndz x = false) -> forall ops s e op, reach H (safe_use H) ops s -> env_ok e -> safe_use H (model ops) op ->
    (exists a s', call H e op s = Ret a s') \/ (exists s', call H e op s = Thr s').
  Proof.
    intros Z ops s e op R E G. destruct (C54_outcomes_partial ops s e op R E G) as [Q|[Q|Q]]; auto.
    exfalso. destruct (proj2 (reach_defined H HSd ops s e op R E G) Q) as [x X]. rewrite Z in X. discriminate.
  Qed.

  (** a query about a variable of the model, hidden or observed, has no
      exception, and one value for each value of the variable *)
  Lemma safe_marginal ops s e k v n : reach H (safe_use H) ops s -> env_ok e -> 1 <= n -> balanced H (model ops) ->
    In (vkey v) (map vkey (sp_vars (model ops))) -> @ook (stops N) _ _ (fun p _ => length p = vsize v) (marginal_query H e k v n s).
  Proof.
    intros R E Ln B KN.
    assert (G1 : forall A op, safe_use H A op -> no_failed_removal A op) by (intros A o (Q & _); auto).
    assert (G2 : forall A op, safe_use H A op -> no_failed_removal A op /\ separated_removal (fvars H) A op) by (intros A o (Q & Q' & _); auto).
    destruct (reach_abs H HSd _ ops s G1 R) as [I AB]. pose proof (reach_clean H HSd _ ops s G2 R) as CL.
    eapply (known_marginal H HSd); eauto. eapply (reach_awake H HSd); eauto.
  Qed.
  Theorem C54_marginal_answers_partial : forall ops s e v n, reach H (safe_use H) ops s -> env_ok e -> 1 <= n -> balanced H (model ops) ->
    In (vkey v) (map vkey (sp_vars (model ops))) ->
    (exists p s', get_marginal H e v n s = Ret p s' /\ length p = vsize v) \/ get_marginal H e v n s = NotNum.
  Proof.
    intros ops s e v n R E Ln B KN. pose proof (safe_marginal ops s e SUM v n R E Ln B KN) as Q.
    pose proof (C29_calls_terminate H HB (safe_use H) ops s e (OMarginal v n) R E) as T. simpl in T.
    change (get_marginal H e v n s) with (marginal_query H e SUM v n s) in *. destruct (marginal_query H e SUM v n s) as [p s'|s'| | |]; simpl in *; try contradiction; eauto; congruence.
  Qed.
  Theorem C54_marginal_numbers_partial : (forall x : N, ndz x = false) -> forall ops s e v n, reach H (safe_use H) ops s -> env_ok e -> 1 <= n ->
    balanced H (model ops) -> In (vkey v) (map vkey (sp_vars (model ops))) ->
    exists p s', get_marginal H e v n s = Ret p s' /\ length p = vsize v.
  Proof.
    intros Z ops s e v n R E Ln B KN. destruct (C54_marginal_answers_partial ops s e v n R E Ln B KN) as [Q|Q]; auto.
    exfalso. pose proof (safe_marginal ops s e SUM v n R E Ln B KN) as D. change (get_marginal H e v n s) with (marginal_query H e SUM v n s) in Q.
    rewrite Q in D. destruct D as [x X]. rewrite Z in X. discriminate.
  Qed.
  Local Lemma find_max_range (l : list N) : forall k m r, r < k -> find_max_loop l k m r < k + length l.
  Proof.
    induction l as [|x l IH]; intros k m r L; simpl. lia.
    destruct (nltb m x); [pose proof (IH (S k) x k ltac:(lia))|pose proof (IH (S k) m r ltac:(lia))]; lia.
  Qed.
  Theorem C54_map_answers_partial : forall ops s e v n, reach H (safe_use H) ops s -> env_ok e -> 1 <= n -> balanced H (model ops) ->
    In v (sp_vars (model ops)) ->
    (exists j s', get_map H e v n s = Ret j s' /\ j < vsize v) \/ get_map H e v n s = NotNum.
  Proof.
    intros ops s e v n R E Ln B KN. pose proof (safe_marginal ops s e MAP v n R E Ln B (in_map vkey _ _ KN)) as Q.
    pose proof (C29_calls_terminate H HB (safe_use H) ops s e (OMap v n) R E) as T. simpl in T.
    assert (G1 : forall A op, safe_use H A op -> no_failed_removal A op) by (intros A o (Z & _); auto).
    destruct (reach_abs H HSd _ ops s G1 R) as [I AB].
    assert (P : 0 < vsize v). { pose proof (co_made _ _ _ (proj1 I)) as M. rewrite Forall_forall in M. apply made_pos, M. rewrite (ab_vars _ _ AB). exact KN. }
    unfold get_map in *. destruct (marginal_query H e MAP v n s) as [p s'|s'| | |]; simpl in *; try contradiction; auto; try congruence.
    destruct p as [|x p]; [simpl in Q; lia|]. left. simpl. eexists _, s'. split; [reflexivity|].
    pose proof (find_max_range p 1 x 0 (Nat.lt_0_1)) as L. simpl in *. lia.
  Qed.
  Theorem C54_map_numbers_partial : (forall x : N, ndz x = false) -> forall ops s e v n, reach H (safe_use H) ops s -> env_ok e -> 1 <= n ->
    balanced H (model ops) -> In v (sp_vars (model ops)) ->
    exists j s', get_map H e v n s = Ret j s' /\ j < vsize v.
  Proof.
    intros Z ops s e v n R E Ln B KN. destruct (C54_map_answers_partial ops s e v n R E Ln B KN) as [Q|Q]; auto.
    exfalso. pose proof (safe_marginal ops s e MAP v n R E Ln B (in_map vkey _ _ KN)) as D. unfold get_map in Q.
    destruct (marginal_query H e MAP v n s) as [p s'|s'| | |]; try discriminate Q; [|destruct D as [x X]; rewrite Z in X; discriminate].
    simpl in Q. destruct p; discriminate Q.
  Qed.
End P.

(** {1 Examples} *)
Section Check.
  Context {N : num}.
  Variable H : nat -> func N.
  Definition safeb (A : spec) (op : gop) : bool :=
    match query_threads op with
    | Some n => (1 <=? n) && balancedb H A && match op with
        | OJoint _ _ => false
        | OJointNames ns _ => match sp_names A ns with Some vs => one_observedb A vs | None => true end
        | _ => true
        end
    | None => properb H A op
    end.
  Lemma safeb_ok A op : safeb A op = true -> safe_use H A op.
  Proof.
    unfold safeb, safe_use, safe_query. destruct (query_threads op) as [n|] eqn:Q; intros S.
    - apply andb_true_iff in S as [S SG]. apply andb_true_iff in S as [S1 S2]. apply Nat.leb_le in S1. apply balancedb_ok in S2.
      splits; try (destruct op; try discriminate Q; exact I).
      + intros m [= <-]. auto.
      + destruct op; try discriminate Q; simpl; auto; try discriminate SG. intros vs E. rewrite E in SG. apply one_observedb_ok; auto.
    - apply properb_ok in S as (S1 & S2 & _). splits; auto. discriminate. destruct op; try discriminate Q; exact I.
  Qed.
  Fixpoint safely (ops : list gop) (A : spec) : bool :=
    match ops with [] => true | op :: r => safeb A op && safely r (sp_next (fvars H) A op) end.
  Lemma safely_reach ops : safely ops spec_empty = true -> sane H ops g_empty = true -> reach H (safe_use H) ops (runs H ops).
  Proof.
    intros P S. apply runs_reach; auto. intros pre op post E. apply safeb_ok. clear S.
    unfold sp_run. revert P. generalize spec_empty. revert ops E. induction pre as [|o pre IH]; intros ops E A P; subst ops; simpl in *.
    - apply andb_true_iff in P. tauto.
    - apply andb_true_iff in P as [_ P]. apply (IH (pre ++ op :: post)); auto.
  Qed.
End Check.

(** a ring of three variables with a fourth attached; evidences are set and
    removed between queries with several threads; some calls have exceptions *)
Definition safe_tale : list gop :=
  [OAdd (Some 0); OAdd (Some 1); OAdd (Some 4); OMarginal exA 2; OAdd (Some 3); OPropagate true 3; OSet exE 1; OMap exA 1;
   OJointNames ["A"; "E"]%string 2; OAdd (Some 0); OSet exE 9; OHiddenMap 2; ORemove exE; OMarginalName "nobody" 1; OIters 3; OSetName "C" 0; OMarginal exD 4].
Example safe_tale_reach : reach bH (safe_use bH) safe_tale (runs bH safe_tale).
Proof. apply safely_reach; vm_compute; reflexivity. Qed.
Example safe_tale_next : safe_use bH (sp_run (fvars bH) safe_tale) (OJointNames ["D"; "A"; "E"]%string 3).
Proof. apply safeb_ok. vm_compute. reflexivity. Qed.
Example safe_tale_known : forall v, In v [exA; exC; exD; exE] -> In v (sp_vars (sp_run (fvars bH) safe_tale)).
Proof. intros v I. vm_compute. simpl in I. tauto. Qed.
Example safe_tale_balanced : balanced bH (sp_run (fvars bH) safe_tale).
Proof. apply balancedb_ok. vm_compute. reflexivity. Qed.

(** factors with a product always zero: the queries compute 0/0, but have no
    undefined behaviour *)
Definition zH (f : nat) : func QcNum :=
  match f with
  | 0 => table [exA; exC] [([0; 1], q 1 1)]
  | 1 => table [exC; exD] [([0; 1], q 1 1)]
  | _ => table [exA] [([1], q 2 1)]
  end.
Lemma zH_built f : built (zH f).
Proof.
  do 2 (destruct f as [|f]; [apply table_built; repeat constructor; auto using exA_made, exC_made, exD_made|]).
  apply table_built; repeat constructor; auto using exA_made.
Qed.
Definition zero_tale : list gop := [OAdd (Some 0); OAdd (Some 1); OAdd (Some 2)].
Example zero_tale_reach : reach zH (safe_use zH) zero_tale (runs zH zero_tale).
Proof. apply safely_reach; vm_compute; reflexivity. Qed.
Example zero_tale_next : safe_use zH (sp_run (fvars zH) zero_tale) (OMarginal exC 2).
Proof. apply safeb_ok. vm_compute. reflexivity. Qed.
Definition is_nan {S A} (o : out S A) : bool := match o with NotNum => true | _ => false end.
Example zero_tale_nan : is_nan (call zH env_id (OMarginal exC 2) (runs zH zero_tale)) = true.
Proof. vm_compute. reflexivity. Qed.

(** each condition of [safe_use] is needed: calls with undefined behaviour after
    a removal with an exception ([C20_set_evidence_refuted]), after a removal next to a variable
    that stays observed ([C48_restored_query_refuted]), with 0 threads
    ([C33_usable_refuted]), between variables of different sizes
    ([C25_observed_marginal_refuted]), for two observed variables
    ([C24_two_observed_refuted]) *)

Print Assumptions C54_no_undefined_behaviour_partial.
Print Assumptions C54_outcomes_partial.
Print Assumptions C54_numbers_partial.
Print Assumptions C54_marginal_numbers_partial.
Print Assumptions C54_map_numbers_partial.
Print Assumptions C54_marginal_answers_partial.
Print Assumptions C54_map_answers_partial.
