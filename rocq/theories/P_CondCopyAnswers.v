(** Property C46 for conditional random fields, seen by the user who asks queries: a
    conditional random field made from a random field, or copied from another one,
    answers with the distribution of its source. *)
From Coq Require Import String List Arith Bool Lia Permutation Relations Qcanon.
From Verif Require Import Res Num Categoric Combs Func FuncProofs GroupProofs FactorProofs FactorApi Special SpecialProofs
  Graph GraphLemmas Clusters Belief Query GraphInv EvidInv BeliefInv BigOp GraphSpec Hist P_Graph BeliefSpec JointSpec Sums BeliefHist
  Rebuild Train TrainHist Coherent TrainInv P_Categoric P_Factor Demo BeliefDemo TrainDemo P_Train P_Gradient P_GradientDemo P_Joint Separate FieldHist P_Field Plan CopyProofs P_Copy
  CRF CRFHist P_CRF CRFInv P_CRFDemo CondCopy P_CondAnswers CondSafeSpec CondSafe P_CondSafe P_CondCopy
  P_FilesAnswers P_CondFilesAnswers.
Import ListNotations.
Open Scope nat_scope.

Section P.
  Context {N : num} (OK : num_ok N).
  Notation rst := (rst (N:=N)).
  Notation crf := (crf (N:=N)).
  Implicit Types s src : rst.
  Notation same := (fun v : var => v).

  (** [s] answers with the distribution of [src] *)
  Definition answers_of src s : Prop :=
    (forall e n v, env_ok e -> 1 <= n -> hidden (contents src) v -> tree_around (r_h src) (contents src) v ->
      exists g, get_marginal (r_h s) e v n (r_g s) = Ret (map (marginal (weight (r_h src) (contents src)) (contents src) v) (seq 0 (vsize v))) g) /\
    (forall e n v, env_ok e -> 1 <= n -> above_floor (r_h src) (contents src) -> hidden (contents src) v -> tree_around (r_h src) (contents src) v ->
      exists j g, get_map (r_h s) e v n (r_g s) = Ret j g /\
        (exists x, most_probable (weight (r_h src) (contents src)) (contents src) x /\ val x v = j) /\
        (forall x, most_probable (weight (r_h src) (contents src)) (contents src) x -> j <= val x v)) /\
    (forall e n vs, env_ok e -> 1 <= n -> NoDup (map vkey vs) -> asked (r_h src) (contents src) vs ->
      exists f g, get_joint (r_h s) e (mkGroup vs vs) n (r_g s) = Ret f g /\ f_vars f = vs /\
        exists c, (n0 < c)%num /\ forall k, valid_comb (map vsize vs) k -> fval f k = (c * mass (weight (r_h src) (contents src)) (contents src) (takes_all vs k))%num).

  Lemma content_answers P src s : coh P src -> coh True s -> same_content src s -> answers s ->
    symmetric (r_h src) (contents src) -> positive (weight (r_h src) (contents src)) (contents src) -> answers_of src s.
  Proof.
    intros CS C SC AN SY PO. destruct (content_parts OK _ _ _ _ CS C SC) as (G & ND & FV & PV & EV & l & PL & TW).
    assert (ND' : NoDup (sp_vars (contents s))) by (eapply Permutation_NoDup; eauto).
    assert (FV' : forall f, In f (sp_facs (contents s)) -> incl (f_vars (r_h s f)) (sp_vars (contents s))).
    { intros f J v Jv. eapply (CopyProofs.src_vars_in True s C f v); auto. }
    assert (PV' : Permutation (map same (sp_vars (contents src))) (sp_vars (contents s))) by (rewrite map_id; exact PV).
    assert (TW' : Forall2 (fun f k => f_vars (r_h s k) = map same (f_vars (r_h src f)) /\ forall c, valid_comb (fsizes (r_h src f)) c -> fval (r_h s k) c = fval (r_h src f) c) l (sp_facs (contents s))).
    { eapply F2_mono; [|exact TW]. intros f k _ _ [X V]. rewrite map_id. split; auto. }
    assert (RS : forall w, In w (sp_vars (contents src)) -> vsize (same w) = vsize w) by auto.
    assert (RI : forall u w, In u (sp_vars (contents src)) -> In w (sp_vars (contents src)) -> same u = same w -> u = w) by auto.
    assert (SY' : symmetric (r_h s) (contents s)) by (eapply (twins_symmetric (r_h src) (r_h s) (contents src) (contents s) l); eauto).
    assert (PO' : positive (weight (r_h s) (contents s)) (contents s)) by (eapply (twins_positive OK (r_h src) (r_h s) (contents src) (contents s) l); eauto).
    assert (HI : forall v, hidden (contents s) v <-> hidden (contents src) v) by (intros v; apply (twins_hidden (contents src) (contents s) PV EV)).
    assert (TR : forall v, tree_around (r_h src) (contents src) v -> tree_around (r_h s) (contents s) v).
    { intros v T. eapply (twins_tree (r_h src) (r_h s) (contents src) (contents s) l); eauto. }
    destruct (AN SY' PO') as (A1 & A2 & A3). split; [|split].
    - intros e n v E L Hv T. destruct (A1 e n v E L) as (g & Q). apply HI; auto. apply TR; auto. exists g. rewrite Q. f_equal. apply map_ext. intros j.
      eapply (twins_marginal OK (r_h src) (r_h s) (contents src) (contents s) l); eauto. apply Hv.
    - intros e n v E L AF Hv T. pose proof (proj1 Hv) as Jv. destruct (A2 e n v E L) as (j & g & Q & (x' & Mx' & Vx') & Lx').
      + eapply (twins_floor (r_h src) (r_h s) (contents src) (contents s) l); eauto.
      + apply HI; auto.
      + apply TR; auto.
      + exists j, g. split; [exact Q|]. split.
        * destruct (co_back same (contents src) (contents s) ND' RS PV' x' (proj1 (proj1 Mx'))) as (x & Ix & CO). exists x. split.
          -- apply (rn_best OK same (r_h src) (r_h s) (contents src) (contents s) l ND ND' FV RS RI PV' EV PL TW' x x' CO Ix (proj1 (proj1 Mx'))). exact Mx'.
          -- rewrite <- (CO v Jv). exact Vx'.
        * intros x Mx. destruct (co_there same (contents src) (contents s) ND RS RI PV' x (proj1 (proj1 Mx))) as (y & Iy & CO). rewrite <- (CO v Jv). apply Lx'.
          apply (rn_best OK same (r_h src) (r_h s) (contents src) (contents s) l ND ND' FV RS RI PV' EV PL TW' x y CO (proj1 (proj1 Mx)) Iy). exact Mx.
    - intros e n vs E L NK (NE & NV & I & T & JI & OO). destruct (A3 e n (mkGroup vs vs) E L) as (f & g & Q & V & c & Pc & W); cbn [g_soup] in *.
      + split; [split; [exact NK|apply Permutation_refl]|]. split; [exact NE|]. split.
        * intros v J. eapply Permutation_in; [exact PV|]. apply I; auto.
        * intros v J Hv. apply TR. apply T; auto. apply HI; auto.
      + rewrite <- (map_id vs). eapply (rn_inside same (r_h src) (r_h s) (contents src) (contents s) l); eauto.
      + rewrite <- (map_id vs). apply (rn_observed same (contents src) (contents s) EV vs I OO).
      + exists f, g. split; [exact Q|]. split; [exact V|]. exists c. split; [exact Pc|]. intros k VK. rewrite (W k VK). f_equal.
        eapply (twins_mass OK (r_h src) (r_h s) (contents src) (contents s) l); eauto. intros x y Z. unfold takes_all. replace (map (val y) vs) with (map (val x) vs); auto. apply map_ext_in. intros w J. apply Z. auto.
  Qed.

  (** the two constructors: from a random field, whose factors are copied or shared;
      from a conditional random field, whose factors are shared *)
  Inductive made_from : rst -> bool -> Prop :=
  | MF_field h top src copy : (forall f, built (h f)) -> rreach h top (careful False) src -> made_from src copy
  | MF_cond c : clives false c -> made_from (c_r c) false.

  Theorem C46_conditional_answers_partial : forall src e copy, made_from src copy -> env_ok e ->
    no_lone_variable src -> all_listed src -> clear_sharing src -> distinct_names src -> (exists v, seen src v) -> ~ tunable_all_seen src ->
    symmetric (r_h src) (contents src) -> positive (weight (r_h src) (contents src)) (contents src) ->
    exists c, crf_ctor e src copy = Ret c (c_r c) /\ answers_of src (c_r c).
  Proof.
    intros src e copy MF E NL AL CL DN SE TS SY PO.
    assert (S : source src) by (destruct MF as [h top src copy Hb R|c0 L0]; [exact (SRC_field h top src Hb R)|exact (SRC_cond c0 L0)]).
    pose proof (source_coh src S) as CS.
    destruct (C46_conditional_partial src e copy S E NL AL CL DN SE TS) as (c & Q & SC & _). exists c. split; [exact Q|].
    assert (A : answering c).
    { destruct MF as [h top src copy Hb R|c0 L0].
      - apply (proj1 (C58_after_construction e c (c_r c)) h top src copy Hb); auto. eapply rreach_mono; [|exact R]. intros; exact Logic.I.
      - exact (proj2 (C58_after_construction e c (c_r c)) false c0 L0 E Q). }
    apply (content_answers False); auto. apply (answering_usable OK c A). apply (cond_answers OK); auto.
  Qed.
End P.

(** {1 Examples} *)
Example C46_conditional_answers_example : exists c, crf_ctor env_rev field_state true = Ret c (c_r c) /\ answers_of field_state (c_r c).
Proof.
  apply (C46_conditional_answers_partial QcNum_ok field_state env_rev true (MF_field gH 6 field_state true gH_built (alert_careful _ _ _ field_reach)) env_rev_ok field_lone field_listed field_clear).
  - apply distinct_namesb_ok. vm_compute. reflexivity.
  - exists exE. apply seenb_spec. vm_compute. reflexivity.
  - apply unseen_tunables_ok. vm_compute. reflexivity.
  - exact field_symmetric.
  - exact field_positive.
Qed.
(** a copy of the conditional random field of C58 *)
Example C46_conditional_answers_copy_example : exists c, crf_ctor env_rev (c_r chain_crf) false = Ret c (c_r c) /\ answers_of (c_r chain_crf) (c_r c) /\
  hidden (contents (c_r chain_crf)) exC /\ tree_around (r_h (c_r chain_crf)) (contents (c_r chain_crf)) exC.
Proof.
  destruct (C46_conditional_answers_partial QcNum_ok (c_r chain_crf) env_rev false (MF_cond chain_crf (answering_lives _ chain_answering)) env_rev_ok chain_lone chain_listed chain_clear) as (c & Q & A).
  - apply distinct_namesb_ok. vm_compute. reflexivity.
  - exact chain_seen.
  - exact chain_unseen.
  - exact chain_symmetric.
  - exact chain_positive.
  - exists c. split; [exact Q|]. split; [exact A|]. split; [exact chain_hidden|exact (chain_tree exC)].
Qed.

Print Assumptions C46_conditional_answers_partial.
