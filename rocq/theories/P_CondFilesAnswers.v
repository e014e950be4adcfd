(** Properties C45 and C53 for conditional random fields, seen by the user who asks
    queries: the random field read from the file of a conditional random field, and the
    conditional random field built from it, answer as the one that was exported. *)
From Coq Require Import String List Arith Bool Lia Permutation Relations Qcanon.
From Verif Require Import Res Num Categoric Combs Func FuncProofs GroupProofs FactorProofs FactorApi Special SpecialProofs
  Graph GraphLemmas Clusters Belief Query GraphInv EvidInv BeliefInv BigOp GraphSpec Hist P_Graph BeliefSpec JointSpec Sums BeliefHist
  Rebuild Train TrainHist Coherent TrainInv P_Categoric P_Factor Demo BeliefDemo TrainDemo P_Train P_Gradient P_GradientDemo P_Joint Separate FieldHist P_Field Plan CopyProofs P_Copy
  CRF CRFHist P_CRF CRFInv P_CRFDemo CondCopy P_CondAnswers CondSafeSpec CondSafe P_CondSafe P_CondCopy
  IO TextSpec TextProofs Json JsonRead JsonProofs P_Json Xml XmlProofs P_Xml P_FilesAnswers P_CondFiles.
Import ListNotations.
Open Scope nat_scope.

Section P.
  Context {N : num} (OK : num_ok N).
  Notation rst := (rst (N:=N)).
  Notation crf := (crf (N:=N)).

  Lemma cond_answers (c : crf) : answering c -> answers (c_r c).
  Proof.
    intros R SY PO. split; [|split].
    - intros e n v E L Hv T. exact (C58_marginals_partial OK c e n v R E L SY PO Hv T).
    - intros e n v E L AF Hv T. exact (C58_map_partial OK c e n v R E L SY AF PO Hv T).
    - intros e n g E L GO JI OO. exact (C58_joint_partial OK c e n g R E L SY PO GO JI OO).
  Qed.
  Lemma cond_coh (c : crf) : clives false c -> coh False (c_r c).
  Proof. intros L. exact (source_coh (c_r c) (SRC_cond c L)). Qed.
  Lemma built_again h top e s copy (c : crf) t : (forall f, built (h f)) -> rreach h top alert s -> env_ok e -> crf_ctor e s copy = Ret c t -> answering c.
  Proof.
    intros Hb R E Q. apply (proj1 (C58_after_construction e c t) h top s copy Hb); auto. eapply rreach_mono; [|exact R]. intros; exact Logic.I.
  Qed.

  (** the same answers to the queries about one variable and about several *)
  Definition same_answers (src s : rst) : Prop :=
    (forall v, hidden (contents src) v -> tree_around (r_h src) (contents src) v -> same_marginals src s v) /\
    (forall v, above_floor (r_h src) (contents src) -> hidden (contents src) v -> tree_around (r_h src) (contents src) v -> same_map src s v) /\
    (forall vs, asked (r_h src) (contents src) vs -> same_joint src s vs).
  Lemma read_answers rnd src s rho : coh False src -> coh False s -> answers src -> answers s -> printable src -> read_content rnd rho src s -> exact_values rnd src ->
    symmetric (r_h src) (contents src) -> positive (weight (r_h src) (contents src)) (contents src) -> same_answers src s.
  Proof.
    intros CS C AS AN PR RC EX SY PO. split; [|split].
    - intros v Hv T. exact (rd_marginals OK rnd src s rho CS C AS AN PR RC EX SY PO v Hv T).
    - intros v AF Hv T. exact (rd_map OK rnd src s rho CS C AS AN PR RC EX SY PO v AF Hv T).
    - intros vs AK. exact (rd_joint OK rnd src s rho CS C AS AN PR RC EX SY PO vs AK).
  Qed.

  Variables (fprint : N -> string) (atof : string -> N).
  Hypothesis fprint_plain : forall x, plain (fprint x).
  Notation rnd := (fun x => atof (fprint x)).
  Hypothesis rnd_zero : rnd n0 = n0.
  Hypothesis rnd_nonneg : forall x, (n0 <= x)%num -> (n0 <= rnd x)%num.

  Theorem C45_conditional_answers_partial : forall (c : crf) e e' e'' h' top' next copy, answering c -> env_ok e -> env_ok e' -> env_ok e'' ->
    (forall f, built (h' f)) -> printable (c_r c) -> no_lone_variable (c_r c) -> all_listed (c_r c) -> clear_sharing (c_r c) ->
    (exists v, seen (c_r c) v) -> ~ tunable_all_seen (c_r c) -> exact_values rnd (c_r c) ->
    symmetric (r_h (c_r c)) (contents (c_r c)) -> positive (weight (r_h (c_r c)) (contents (c_r c))) (contents (c_r c)) ->
    exists j s c', export_json fprint e true (c_r c) = Ok j /\ import_json atof e' true next j (r_empty h' top') = Ret tt s /\
      crf_ctor e'' s copy = Ret c' (c_r c') /\ same_answers (c_r c) s /\ same_answers (c_r c) (c_r c').
  Proof.
    intros c e e' e'' h' top' next copy A E E' E'' Hb' PR NL AL CL SV TS EX SY PO. pose proof (answering_lives c A) as L.
    destruct (C45_conditional_partial OK fprint atof fprint_plain rnd_zero rnd_nonneg c e e' h' top' next L E E' Hb' PR NL AL CL) as (j & s & rho & Q1 & Q2 & RC & _ & _ & R).
    destruct (C45_conditional_again_partial OK fprint atof fprint_plain rnd_zero rnd_nonneg c e e' e'' h' top' next copy L E E' E'' Hb' PR NL AL CL SV TS)
      as (j1 & s1 & rho1 & c' & P1 & P2 & P3 & RC' & _).
    assert (Ej : j1 = j) by congruence. subst j1. assert (Es : s1 = s) by congruence. subst s1.
    pose proof (built_again h' top' e'' s copy c' (c_r c') Hb' R E'' P3) as A'.
    exists j, s, c'. split; [exact Q1|]. split; [exact Q2|]. split; [exact P3|]. split.
    - apply (read_answers rnd (c_r c) s rho); auto. apply cond_coh; auto. apply (field_coh h' top'); auto. apply cond_answers; auto. apply (field_answers OK h' top'); auto.
    - apply (read_answers rnd (c_r c) (c_r c') rho1); auto. apply cond_coh; auto. apply cond_coh; apply answering_lives; auto. apply cond_answers; auto. apply cond_answers; auto.
  Qed.

  Variable place : list nat -> list nat.
  Hypothesis OR : orderly place.
  Variable files : string -> option string.
  Variable prefix : string.
  Theorem C53_conditional_answers_partial : forall (c : crf) e e' e'' h' top' next copy, answering c -> env_ok e -> env_ok e' -> env_ok e'' ->
    (forall f, built (h' f)) -> printable (c_r c) -> no_lone_variable (c_r c) -> all_listed (c_r c) -> clear_sharing (c_r c) ->
    (exists v, seen (c_r c) v) -> ~ tunable_all_seen (c_r c) -> exact_values rnd (c_r c) ->
    symmetric (r_h (c_r c)) (contents (c_r c)) -> positive (weight (r_h (c_r c)) (contents (c_r c))) (contents (c_r c)) ->
    exists t, export_xml fprint e true (c_r c) = Ok t /\ forall t', reads place t t' ->
    exists s c', import_xml atof place files prefix e' true next t' (r_empty h' top') = Ret tt s /\
      crf_ctor e'' s copy = Ret c' (c_r c') /\ same_answers (c_r c) s /\ same_answers (c_r c) (c_r c').
  Proof.
    intros c e e' e'' h' top' next copy A E E' E'' Hb' PR NL AL CL SV TS EX SY PO.
    destruct (C45_conditional_answers_partial c e e' e'' h' top' next copy A E E' E'' Hb' PR NL AL CL SV TS EX SY PO) as (j & s & c' & Q1 & Q2 & Q3).
    destruct (same_file fprint atof fprint_plain place OR files prefix False (c_r c) e true j (cond_coh c (answering_lives c A)) E PR Q1) as (t & T1 & T2).
    exists t. split; [exact T1|]. intros t' RT. exists s, c'. split; [|exact Q3]. rewrite (T2 t' e' true next _ RT). exact Q2.
  Qed.
End P.

(** {1 Examples} *)
Lemma chain_printable : printable (c_r chain_crf).
Proof. apply printableb_ok. vm_compute. reflexivity. Qed.
Lemma chain_lone : no_lone_variable (c_r chain_crf).
Proof. apply no_lone_variableb_ok. vm_compute. reflexivity. Qed.
Lemma chain_listed : all_listed (c_r chain_crf).
Proof. apply all_listedb_ok. vm_compute. reflexivity. Qed.
Lemma chain_clear : clear_sharing (c_r chain_crf).
Proof. apply (clearb_ok QcNum_ok). { exact (ri_built _ (ch_r _ _ (cond_coh _ (answering_lives _ chain_answering)))). } vm_compute. reflexivity. Qed.
Lemma chain_seen : exists v, seen (c_r chain_crf) v.
Proof. exists exE. apply seenb_spec. vm_compute. reflexivity. Qed.
Lemma chain_unseen : ~ tunable_all_seen (c_r chain_crf).
Proof. apply unseen_tunables_ok. vm_compute. reflexivity. Qed.
Lemma chain_exact : exact_values rnd6 (c_r chain_crf).
Proof. apply exactb_ok. vm_compute. reflexivity. Qed.
Lemma chain_hidden : hidden (contents (c_r chain_crf)) exC.
Proof. apply hiddenb_ok. vm_compute. reflexivity. Qed.
Example C45_conditional_answers_example : exists j s c', export_json print6 env_rev true (c_r chain_crf) = Ok j /\ import_json read6 env_id true 40 j (r_empty gH 6) = Ret tt s /\
  crf_ctor env_rev s true = Ret c' (c_r c') /\ same_marginals (c_r chain_crf) s exC /\ same_marginals (c_r chain_crf) (c_r c') exC.
Proof.
  destruct (C45_conditional_answers_partial QcNum_ok print6 read6 print6_plain read6_zero read6_nonneg chain_crf env_rev env_id env_rev gH 6 40 true chain_answering env_rev_ok env_id_ok env_rev_ok
    gH_built chain_printable chain_lone chain_listed chain_clear chain_seen chain_unseen chain_exact chain_symmetric chain_positive) as (j & s & c' & Q1 & Q2 & Q3 & A & A').
  exists j, s, c'. split; [exact Q1|]. split; [exact Q2|]. split; [exact Q3|]. split; [exact (proj1 A exC chain_hidden (chain_tree exC))|exact (proj1 A' exC chain_hidden (chain_tree exC))].
Qed.
Example C53_conditional_answers_example : exists t s c', export_xml print6 env_rev true (c_r chain_crf) = Ok t /\
  import_xml read6 at_front no_file "" env_id true 40 (again at_front t) (r_empty gH 6) = Ret tt s /\
  crf_ctor env_rev s false = Ret c' (c_r c') /\ same_marginals (c_r chain_crf) s exC /\ same_marginals (c_r chain_crf) (c_r c') exC.
Proof.
  destruct (C53_conditional_answers_partial QcNum_ok print6 read6 print6_plain read6_zero read6_nonneg at_front at_front_orderly no_file "" chain_crf env_rev env_id env_rev gH 6 40 false chain_answering env_rev_ok env_id_ok env_rev_ok
    gH_built chain_printable chain_lone chain_listed chain_clear chain_seen chain_unseen chain_exact chain_symmetric chain_positive) as (t & Q1 & Q).
  destruct (Q (again at_front t) (again_reads at_front (proj1 at_front_orderly) t)) as (s & c' & Q2 & Q3 & A & A').
  exists t, s, c'. split; [exact Q1|]. split; [exact Q2|]. split; [exact Q3|]. split; [exact (proj1 A exC chain_hidden (chain_tree exC))|exact (proj1 A' exC chain_hidden (chain_tree exC))].
Qed.

Print Assumptions C53_conditional_answers_partial.
Print Assumptions C45_conditional_answers_partial.
