(** Property C56: the absorption of lists of factors.

    [absorbConstFactors], [absorbTunableFactors] and [absorbTunableClusters] never
    throw: a factor that the insertion rejects is skipped. The results are those of
    AbsorbSpec.v. [fvars (r_h s')] gives the variables of the objects, also of the
    ones made during the call. The states are those reached with calls that
    respect [careful] (Coherent.v). *)
From Coq Require Import String List Arith Bool Lia Permutation Relations QArith Qcanon.
From Verif Require Import Res Num Categoric Combs Func FuncProofs GroupProofs FactorProofs FactorApi Special SpecialProofs
  Graph GraphLemmas Clusters Belief Query GraphInv EvidInv BeliefInv BigOp Tree Cycle BPStep BPRun GraphSpec Hist P_Graph BeliefSpec Sums Exact BeliefHist Queries
  Rebuild P_Belief Parts JointSpec Joint P_Joint Train TrainHist Coherent TrainSpec Gradient TrainInv GradientRun P_Categoric P_Factor Demo BeliefDemo TrainDemo P_Train
  P_GradientDemo FieldHist P_Field Plan CopyProofs P_Copy FieldSafe AbsorbSpec Absorb.
Import ListNotations.
Open Scope nat_scope.

Section P.
  Context {N : num} (OK : num_ok N).
  Notation rst := (rst (N:=N)).
  Implicit Types s : rst.

  Lemma abs_same_model P s A : coh P s -> abs (r_g s) A -> same_model (contents s) A.
  Proof. intros C AB. destruct (abs_same_spec _ _ _ (coh_abs P s C) AB) as (E1 & E2 & E3). split; auto. Qed.
  Lemma agree_self s : agree s (fvars (r_h s)).
  Proof. intros j _. auto. Qed.

  (** C56, constant factors: the accepted ones become constant factors of the
      model, in order; the objects of before do not change; a copy has the
      variables and the values of its factor *)
  Theorem C56_const_partial : forall h top s l copy, (forall f, built (h f)) -> rreach h top (careful False) s -> (forall f, In f l -> object s f) ->
    exists s', absorb_const l copy s = Ret tt s' /\
      (let '(accepted, A) := sp_accept (fvars (r_h s')) (contents s) (taken copy (r_top s) l) in
       same_model (contents s') A /\ r_const s' = r_const s ++ accepted /\ tunable_clusters s' = tunable_clusters s) /\
      (forall f, object s f -> r_h s' f = r_h s f) /\
      Forall2 (fun f k => object s' k /\ same_values (r_h s f) (r_h s' k)) l (taken copy (r_top s) l).
  Proof.
    intros h top s l copy Hb R O. pose proof (rreach_coh False h top s Hb R) as C.
    destruct (absorb_const_does False l copy s (contents s) C (coh_abs False s C) O) as (s' & acc & A' & E & CS & AB & SP & Eh & F & Ec & Eu).
    exists s'. splits; auto. rewrite SP by apply agree_self. splits; auto.
    - eapply abs_same_model; eauto. apply CS.
    - unfold tunable_clusters. rewrite Eu. auto.
  Qed.

  (** C56, tunable factors: each accepted one is a cluster of its own, with its
      own weight *)
  Theorem C56_tunable_partial : forall h top s l copy, (forall f, built (h f)) -> rreach h top (careful False) s -> (forall f, In f l -> expo s f) ->
    exists s', absorb_tunable copy l s = Ret tt s' /\
      (let '(accepted, A) := sp_accept (fvars (r_h s')) (contents s) (taken copy (r_top s) l) in
       same_model (contents s') A /\ r_const s' = r_const s /\ tunable_clusters s' = tunable_clusters s ++ map (fun k => [k]) accepted) /\
      (forall f, object s f -> r_h s' f = r_h s f) /\
      Forall2 (fun f k => object s' k /\ same_values (r_h s f) (r_h s' k) /\ f_exp (r_h s' k) = f_exp (r_h s f)) l (taken copy (r_top s) l).
  Proof.
    intros h top s l copy Hb R O. pose proof (rreach_coh False h top s Hb R) as C.
    destruct (absorb_tunable_does False l copy s (contents s) C (coh_abs False s C) O) as (s' & acc & A' & E & CS & AB & SP & Eh & F & Ec & Eu).
    exists s'. splits; auto. rewrite SP by apply agree_self. splits; auto.
    eapply abs_same_model; eauto. apply CS.
  Qed.

  (** C56, clusters: the model and its clusters are those of [sp_clusters]; the
      objects that are not inserted do not change *)
  Theorem C56_clusters_partial : forall h top s cs copy, (forall f, built (h f)) -> rreach h top (careful False) s ->
    (forall c, In c cs -> c <> []) -> (forall c f, In c cs -> In f c -> expo s f) -> (forall c f, In c cs -> In f c -> on_hidden s f) ->
    exists s', absorb_clusters copy cs s = Ret tt s' /\
      (let '(A, cls, next) := sp_clusters (fvars (r_h s')) copy cs (contents s, tunable_clusters s, r_top s) in
       same_model (contents s') A /\ r_const s' = r_const s /\ tunable_clusters s' = cls /\ r_top s' = next) /\
      (forall f, object s f -> copy = true \/ ~ In f (concat cs) -> r_h s' f = r_h s f).
  Proof.
    intros h top s cs copy Hb R NE X HH. pose proof (rreach_coh False h top s Hb R) as C.
    destruct (absorb_clusters_does False copy cs s (contents s) NE C (coh_abs False s C) X HH) as (s' & A' & E & CS & AB & SP & Eh & Ec).
    exists s'. splits; auto. rewrite SP by apply agree_self. splits; auto.
    eapply abs_same_model; eauto. apply CS.
  Qed.
End P.

(** {1 Examples} *)

(** A model with a tunable factor on A - C (object 0). Of the list: 4, on E and on
    another variable with the name of A, is rejected, E stays; 5, on A, is
    accepted, once; 1 is accepted. *)
Notation ab_state := (rruns (r_empty kH 6) [RTun (Some 0) None]).
Lemma ab_reach : rreach kH 6 (careful False) ab_state.
Proof. apply k_reach. vm_compute. reflexivity. Qed.

Definition objectsb (s : rst (N:=QcNum)) (l : list nat) : bool := forallb (fun f => f <? r_top s) l.
Lemma objectsb_ok s l : objectsb s l = true -> forall f, In f l -> object s f.
Proof. unfold objectsb. rewrite forallb_forall. intros Q f J. apply Nat.ltb_lt. apply Q; auto. Qed.
Definition exposb (s : rst (N:=QcNum)) (l : list nat) : bool := forallb (fun f => (f <? r_top s) && match f_exp (r_h s f) with Some _ => true | None => false end) l.
Lemma exposb_ok s l : exposb s l = true -> forall f, In f l -> expo s f.
Proof.
  unfold exposb. rewrite forallb_forall. intros Q f J. apply Q, andb_true_iff in J as [J1 J2]. split. apply Nat.ltb_lt; auto.
  destruct (f_exp (r_h s f)); congruence.
Qed.
Definition summary (s : rst (N:=QcNum)) : list var * list nat * list nat * list (list nat) :=
  (sp_vars (contents s), sp_facs (contents s), r_const s, tunable_clusters s).

Example ex_C56_const :
  (forall f, In f [4; 5; 0; 5; 1] -> object ab_state f) /\
  summary ab_state = ([exA; exC], [0], [], [[0]]) /\
  (exists s', absorb_const [4; 5; 0; 5; 1] false ab_state = Ret tt s' /\ summary s' = ([exA; exC; exE], [0; 5; 1], [5; 1], [[0]])) /\
  (exists s', absorb_const [4; 5; 0; 5; 1] true ab_state = Ret tt s' /\ summary s' = ([exA; exC; exE], [0; 7; 9; 10], [7; 9; 10], [[0]])).
Proof.
  split; [|split; [|split]].
  - apply objectsb_ok. vm_compute. reflexivity.
  - vm_compute. reflexivity.
  - exists (state_of (absorb_const [4; 5; 0; 5; 1] false ab_state)). split. apply returns_state. vm_compute. reflexivity. vm_compute. reflexivity.
  - exists (state_of (absorb_const [4; 5; 0; 5; 1] true ab_state)). split. apply returns_state. vm_compute. reflexivity. vm_compute. reflexivity.
Qed.
Example ex_C56_tunable :
  (forall f, In f [0; 1; 3; 1; 2] -> expo ab_state f) /\
  (exists s', absorb_tunable false [0; 1; 3; 1; 2] ab_state = Ret tt s' /\ summary s' = ([exA; exC; exD], [0; 1; 3; 2], [], [[0]; [1]; [3]; [2]])).
Proof.
  split.
  - apply exposb_ok. vm_compute. reflexivity.
  - exists (state_of (absorb_tunable false [0; 1; 3; 1; 2] ab_state)). split. apply returns_state. vm_compute. reflexivity. vm_compute. reflexivity.
Qed.
(** the cluster of 0, that the model has, is skipped with the factor 3; of the
    second one, 3 shares the weight of 1 and 2 is not reached *)
Example ex_C56_clusters :
  (forall c, In c [[0; 3]; [1; 3; 0; 2]] -> c <> []) /\
  (forall c f, In c [[0; 3]; [1; 3; 0; 2]] -> In f c -> expo ab_state f) /\
  (forall c f, In c [[0; 3]; [1; 3; 0; 2]] -> In f c -> on_hidden ab_state f) /\
  (exists s', absorb_clusters false [[0; 3]; [1; 3; 0; 2]] ab_state = Ret tt s' /\ summary s' = ([exA; exC; exD], [0; 1; 3], [], [[0]; [1; 3]])).
Proof.
  split; [|split; [|split]].
  - intros c [<-|[<-|[]]]; discriminate.
  - intros c f [<-|[<-|[]]]; revert f; apply exposb_ok; vm_compute; reflexivity.
  - intros c f J Jf. apply on_hiddenb_ok. assert (Q : forallb (forallb (on_hiddenb ab_state)) [[0; 3]; [1; 3; 0; 2]] = true) by (vm_compute; reflexivity).
    rewrite forallb_forall in Q. apply Q in J. rewrite forallb_forall in J. auto.
  - exists (state_of (absorb_clusters false [[0; 3]; [1; 3; 0; 2]] ab_state)). split. apply returns_state. vm_compute. reflexivity. vm_compute. reflexivity.
Qed.

Print Assumptions C56_const_partial.
Print Assumptions C56_tunable_partial.
Print Assumptions C56_clusters_partial.
