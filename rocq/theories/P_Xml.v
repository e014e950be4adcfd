(** C53: a model exported to xml and imported again. *)
From Coq Require Import Ascii String List Arith ZArith Bool Lia Permutation QArith Qcanon.
From Verif Require Import Res Num Categoric Combs Func FuncProofs GroupProofs FactorProofs FactorApi Special SpecialProofs
  Graph GraphLemmas Clusters Belief Query Gibbs GibbsChain GraphInv EvidInv BeliefInv BigOp BPRun GraphSpec Hist P_Graph BeliefSpec Sums Rebuild BeliefHist Train TrainHist Coherent CRF CRFHist TrainInv FieldHist
  Plan CopyProofs P_Categoric P_Factor Demo BeliefDemo TrainDemo P_Train P_Gradient P_GradientDemo P_Field P_Copy IO TextSpec TextProofs Json JsonRead JsonProofs P_Json Xml XmlProofs.
Import ListNotations.
Open Scope nat_scope.

Section P.
  Context {N : num} (OK : num_ok N).
  Notation rst := (rst (N:=N)).
  Implicit Types s src : rst.
  (** [std::to_string] and [std::atof], as in C45; the order of the multimaps; the files *)
  Variable fprint : N -> string.
  Variable atof : string -> N.
  Notation rnd := (fun x => atof (fprint x)).
  Hypothesis fprint_plain : forall x, plain (fprint x).
  Hypothesis rnd_zero : rnd n0 = n0.
  Hypothesis rnd_nonneg : forall x, (n0 <= x)%num -> (n0 <= rnd x)%num.
  Variable place : list nat -> list nat.
  Hypothesis OR : orderly place.
  Variable files : string -> option string.
  Variable prefix : string.

  Lemma vset_add_in l v w : In w (vset_add l v) -> In w l \/ w = v.
  Proof.
    assert (D : forall a b : string * nat, {a = b} + {a <> b}) by (decide equality; [apply Nat.eq_dec|apply string_dec]). destruct (in_dec D (vkey v) (map vkey l)) as [J|J]. rewrite vset_add_old by auto. auto. rewrite vset_add_new by auto. intros I. apply in_app_or in I as [I|[I|[]]]; auto.
  Qed.
  Lemma hidden_known e s v : In v (hidden_variables e (r_g s)) -> In v (g_vars (r_g s)).
  Proof.
    unfold hidden_variables. set (l := flat_map _ _). clearbody l.
    assert (G : forall acc, (forall v, In v acc -> In v (g_vars (r_g s))) -> forall v, In v (fold_left (fun acc a => match nth_error (g_vars (r_g s)) a with Some v => vset_add acc v | None => acc end) l acc) -> In v (g_vars (r_g s))).
    { induction l as [|a l IH]; intros acc Q; cbn [fold_left]; auto. apply IH. destruct (nth_error (g_vars (r_g s)) a) as [x|] eqn:E; auto. intros w J. apply vset_add_in in J as [J| ->]; auto. eapply nth_error_In; eauto. }
    apply G. intros ? [].
  Qed.
  (** what is written in json is what is read from the xml file *)
  Lemma same_file P src e tun j : coh P src -> env_ok e -> printable src -> export_json fprint e tun src = Ok j ->
    exists t, export_xml fprint e tun src = Ok t /\ forall t' e' it next s, reads place t t' -> import_xml atof place files prefix e' it next t' s = import_json atof e' it next j s.
  Proof.
    intros C E [_ PR] EX.
    destruct (export_same place OR fprint fprint_plain e tun src j) as (t & E1 & E2); auto.
    - intros v J. apply PR. eapply hidden_known; eauto.
    - intros a v _ Q. apply PR. unfold node_var, vget in Q. destruct (nth_error (g_vars (r_g src)) a) as [x|] eqn:En; [|discriminate Q]. injection Q as <-. eapply nth_error_In; eauto.
    - intros f J. apply Forall_forall. intros v Jv. apply PR. eapply CopyProofs.src_vars_in; eauto. apply (ri_in _ (ch_r _ _ C)). apply in_or_app.
      destruct J as [J|J]. left. eapply Permutation_in; [apply (proj1 E)|exact J]. right. apply (ri_tun _ (ch_r _ _ C)). auto.
    - exists t. split; auto. intros t' e' it next s R. destruct (E2 t' R) as [PL <-]. apply import_same. exact PL.
  Qed.

  (** C53. As C45, through an xml file: whatever the orders in which the sets are
      visited and the elements of the multimaps are, if the file is read as it was
      written. *)
  Theorem C53_field_partial : forall h top src e e' h' top' next, (forall f, built (h f)) -> rreach h top (careful False) src -> env_ok e -> env_ok e' ->
    (forall f, built (h' f)) -> printable src -> no_lone_variable src -> all_listed src -> clear_sharing src ->
    exists t, export_xml fprint e true src = Ok t /\ forall t', reads place t t' ->
    exists s rho, import_xml atof place files prefix e' true next t' (r_empty h' top') = Ret tt s /\
      read_content rnd rho src s /\
      Forall2 (Forall2 (tuned_reads rnd rho (r_h src) (r_h s))) (tunable_clusters src) (tunable_clusters s) /\
      (exists ws, get_weights src = Ok ws /\ get_weights s = Ok (map rnd ws)) /\
      (forall f, f < top' -> r_h s f = h' f) /\
      (forall k, In k (g_all (r_g s)) -> top' <= k) /\
      rreach h' top' alert s.
  Proof.
    intros h top src e e' h' top' next Hb R E E' Hb' PR NL AL CL.
    destruct (C45_field_partial OK fprint atof fprint_plain rnd_zero rnd_nonneg h top src e e' h' top' next Hb R E E' Hb' PR NL AL CL) as (j & s & rho & Q1 & Q2 & Q3).
    destruct (same_file False src e true j (rreach_coh False h top src Hb R) E PR Q1) as (t & T1 & T2). exists t. split; auto. intros t' RT. exists s, rho. rewrite (T2 t' e' true next _ RT). auto.
  Qed.
  (** C53. The import into a [Graph] *)
  Theorem C53_graph_partial : forall h top src e e' h' top' next tun, (forall f, built (h f)) -> rreach h top (careful False) src -> env_ok e -> env_ok e' ->
    (forall f, built (h' f)) -> printable src -> no_lone_variable src -> all_listed src -> tun = true \/ tunable_clusters src = [] ->
    exists t, export_xml fprint e tun src = Ok t /\ forall t', reads place t t' ->
    exists s rho, import_xml atof place files prefix e' false next t' (r_empty h' top') = Ret tt s /\
      read_content rnd rho src s /\ tunable_clusters s = [] /\
      (forall f, f < top' -> r_h s f = h' f) /\
      (forall k, In k (g_all (r_g s)) -> top' <= k) /\
      rreach h' top' alert s.
  Proof.
    intros h top src e e' h' top' next tun Hb R E E' Hb' PR NL AL TU.
    destruct (C45_graph_partial OK fprint atof fprint_plain rnd_zero rnd_nonneg h top src e e' h' top' next tun Hb R E E' Hb' PR NL AL TU) as (j & s & rho & Q1 & Q2 & Q3).
    destruct (same_file False src e tun j (rreach_coh False h top src Hb R) E PR Q1) as (t & T1 & T2). exists t. split; auto. intros t' RT. exists s, rho. rewrite (T2 t' e' false next _ RT). auto.
  Qed.
End P.

(** {1 A file as it is read}

    The tag read from the text printed for another one. *)
Section Again.
  Variable place : list nat -> list nat.
  Hypothesis PP : forall l, Permutation (place l) l.
  Definition visited {A} (l : list (string * A)) : list (string * A) :=
    flat_map (fun key => map (pair key) (range place l key)) (nodup string_dec (map fst l)).
  Fixpoint again (t : tag) : tag :=
    match t with Tag a n => Tag (visited a) (visited (map (fun p => (fst p, again (snd p))) n)) end.
  Lemma with_key_pair {A} (l : list A) k key : with_key (map (pair k) l) key = if String.eqb k key then l else [].
  Proof. unfold with_key. induction l as [|x l IH]; cbn [map filter fst]. destruct (String.eqb k key); auto. destruct (String.eqb k key); cbn [map snd]; congruence. Qed.
  Lemma with_key_absent {A} (l : list (string * A)) key : ~ In key (map fst l) -> with_key l key = [].
  Proof.
    unfold with_key. induction l as [|p l IH]; auto. intros NI. cbn [filter]. destruct (String.eqb (fst p) key) eqn:E. apply String.eqb_eq in E. exfalso. apply NI. left; auto.
    apply IH. intros J. apply NI. right; auto.
  Qed.
  Lemma visited_key {A} (l : list (string * A)) key : with_key (visited l) key = range place l key.
  Proof.
    unfold visited. assert (ND : NoDup (nodup string_dec (map fst l))) by apply NoDup_nodup.
    assert (G : forall ks, NoDup ks -> with_key (flat_map (fun key => map (pair key) (range place l key)) ks) key = if in_dec string_dec key ks then range place l key else []).
    { induction ks as [|k ks IH]; intros N; auto. inversion N; subst. cbn [flat_map]. rewrite with_key_app, with_key_pair, IH by auto. destruct (String.eqb_spec k key) as [->|NE].
      - destruct (in_dec string_dec key ks); [contradiction|]. destruct (in_dec string_dec key (key :: ks)) as [|Z]; [apply app_nil_r|exfalso; apply Z; left; auto].
      - destruct (in_dec string_dec key ks) as [J|J]; destruct (in_dec string_dec key (k :: ks)) as [J'|J']; auto. exfalso; apply J'; right; auto. destruct J'; [congruence|contradiction]. }
    rewrite G by auto. destruct (in_dec string_dec key (nodup string_dec (map fst l))) as [|J]; auto. unfold range. rewrite with_key_absent. rewrite permute_nil; auto.
    intros Z. apply J. apply nodup_In. auto.
  Qed.
  Lemma with_key_map {A B} (F : A -> B) l key : with_key (map (fun p => (fst p, F (snd p))) l) key = map F (with_key l key).
  Proof. unfold with_key. induction l as [|p l IH]; auto. cbn [map filter fst]. destruct (String.eqb (fst p) key); cbn [map snd]; congruence. Qed.
  Lemma again_reads : forall t, reads place t (again t).
  Proof.
    fix IH 1. intros [a n]. constructor; intros key; cbn [attributes nested again].
    - apply visited_key.
    - rewrite visited_key. unfold range. apply F2_permute; [exact PP|]. rewrite with_key_map.
      assert (F : Forall2 (reads place) (map snd n) (map again (map snd n))).
      { induction n as [|[k t] n IHn]; cbn [map snd]; constructor. apply IH. exact IHn. }
      clear -F. unfold with_key. induction n as [|p n IHn]; cbn [filter map]. constructor. inversion F; subst. destruct (String.eqb (fst p) key); cbn [map]; auto.
  Qed.
End Again.

(** the orders of some implementations: at the end, at the front (libstdc++), after the
    first one *)
Definition at_end (l : list nat) : list nat := l.
Definition at_front (l : list nat) : list nat := rev l.
Definition after_first (l : list nat) : list nat := match l with [] => [] | x :: r => x :: rev r end.
Lemma rev_seq_nth n i j : nth_error (rev (seq 0 n)) i = Some j -> i < n /\ j = n - 1 - i.
Proof.
  intros Q. assert (L : i < n). { assert (X : i < length (rev (seq 0 n))) by (apply nth_error_Some; congruence). rewrite rev_length, seq_length in X. exact X. }
  split; auto. apply nth_error_nth with (d := 0) in Q. rewrite rev_nth in Q by (rewrite seq_length; auto). rewrite seq_length, seq_nth in Q by lia. lia.
Qed.
Lemma nth_rev_seq n i : i < n -> nth_error (rev (seq 0 n)) i = Some (n - 1 - i).
Proof.
  intros L. destruct (nth_error (rev (seq 0 n)) i) as [j|] eqn:Q. apply rev_seq_nth in Q as [_ ->]. auto. apply nth_error_None in Q. rewrite rev_length, seq_length in Q. lia.
Qed.
Lemma at_end_orderly : orderly at_end.
Proof.
  split; [intros l; apply Permutation_refl|]. intros n i j Q. unfold at_end in *. assert (L : i < n). { assert (X : i < length (seq 0 n)) by (apply nth_error_Some; congruence). rewrite seq_length in X. exact X. }
  assert (j = i). { apply nth_error_nth with (d := 0) in Q. rewrite seq_nth in Q by auto. simpl in Q. auto. } subst. exact Q.
Qed.
Lemma at_front_orderly : orderly at_front.
Proof.
  split; [intros l; symmetry; apply Permutation_rev|]. intros n i j Q. unfold at_front in *. apply rev_seq_nth in Q as [L ->]. rewrite nth_rev_seq by lia. f_equal. lia.
Qed.
Lemma after_first_orderly : orderly after_first.
Proof.
  split. { intros [|x l]; simpl; auto. constructor. symmetry. apply Permutation_rev. }
  intros [|n] i j Q. destruct i; discriminate Q. cbn [seq after_first] in *. rewrite <- seq_shift, <- map_rev in *. destruct i as [|i]; cbn [nth_error] in *.
  - injection Q as <-. reflexivity.
  - rewrite nth_error_map in Q. destruct (nth_error (rev (seq 0 n)) i) as [k|] eqn:E; [|discriminate]. injection Q as <-. apply rev_seq_nth in E as [L ->]. cbn [nth_error].
    rewrite nth_error_map, nth_rev_seq by lia. simpl. f_equal. lia.
Qed.

Notation no_file := (fun _ : string => @None string).
Example C53_field_example : exists t s rho, export_xml print6 env_rev true field_state = Ok t /\
  import_xml read6 at_front no_file "" env_id true 40 (again at_front t) (r_empty gH 6) = Ret tt s /\
  read_content rnd6 rho field_state s /\ (exists ws, get_weights field_state = Ok ws /\ get_weights s = Ok (map rnd6 ws)) /\ evidence (r_g s) (rho exE) 1.
Proof.
  destruct (C53_field_partial QcNum_ok print6 read6 print6_plain read6_zero read6_nonneg at_front at_front_orderly no_file "" gH 6 field_state env_rev env_id gH 6 40 gH_built (alert_careful _ _ _ field_reach)
    env_rev_ok env_id_ok gH_built field_printable field_lone field_listed field_clear) as (t & Q1 & Q).
  destruct (Q (again at_front t) (again_reads at_front (proj1 at_front_orderly) t)) as (s & rho & Q2 & RC & _ & WS & _).
  exists t, s, rho. split; [exact Q1|]. split; [exact Q2|]. split; [exact RC|]. split; [exact WS|]. destruct RC as (_ & _ & EV & _). apply EV.
  - vm_compute. tauto.
  - exists 3. split; vm_compute; reflexivity.
Qed.
Example C53_graph_example : exists t s rho, export_xml print6 env_rev true field_state = Ok t /\
  import_xml read6 after_first no_file "" env_id false 40 (again after_first t) (r_empty gH 6) = Ret tt s /\ read_content rnd6 rho field_state s /\ tunable_clusters s = [].
Proof.
  destruct (C53_graph_partial QcNum_ok print6 read6 print6_plain read6_zero read6_nonneg after_first after_first_orderly no_file "" gH 6 field_state env_rev env_id gH 6 40 true gH_built (alert_careful _ _ _ field_reach)
    env_rev_ok env_id_ok gH_built field_printable field_lone field_listed (or_introl eq_refl)) as (t & Q1 & Q).
  destruct (Q (again after_first t) (again_reads after_first (proj1 after_first_orderly) t)) as (s & rho & Q2 & RC & TC & _).
  exists t, s, rho. split; [exact Q1|]. split; [exact Q2|]. split; [exact RC|exact TC].
Qed.

(** {1 The statement of C53 does not hold for every model} *)
Definition xml_of (src : rst (N:=QcNum)) : tag := match export_xml print6 env_id true src with Ok t => t | _ => Tag [] [] end.
Definition xprinted (src : rst (N:=QcNum)) : bool := match export_xml print6 env_id true src with Ok _ => true | _ => false end.
Lemma xprinted_text src : xprinted src = true -> export_xml print6 env_id true src = Ok (xml_of src).
Proof. unfold xprinted, xml_of. destruct (export_xml print6 env_id true src); intros Q; try discriminate Q. reflexivity. Qed.
Lemma front_reads t : reads at_front t (again at_front t).
Proof. apply again_reads. apply at_front_orderly. Qed.
Notation xml_j src := (import_xml read6 at_front no_file "" env_id true 40 (again at_front (xml_of src)) (r_empty jH 5)).
Notation xml_k src := (import_xml read6 at_front no_file "" env_id true 40 (again at_front (xml_of src)) (r_empty kH 6)).

(** Two variables with the same name and different sizes: the file cannot be imported. *)
Theorem C53_names_refuted : exists src t t' s, rreach jH 5 (careful False) src /\ no_lone_variable src /\ all_listed src /\ clear_sharing src /\
  export_xml print6 env_id true src = Ok t /\ reads at_front t t' /\ import_xml read6 at_front no_file "" env_id true 40 t' (r_empty jH 5) = Thr s.
Proof.
  set (src := rruns (r_empty jH 5) [RConst (Some 0); RConst (Some 1)]). exists src, (xml_of src), (again at_front (xml_of src)), (state_of (xml_j src)).
  assert (R : rreach jH 5 (careful False) src) by (apply j_reach; vm_compute; reflexivity).
  split; [exact R|]. split; [apply no_lone_variableb_ok; vm_compute; reflexivity|]. split; [apply all_listedb_ok; vm_compute; reflexivity|].
  split. { apply (clearb_ok QcNum_ok). exact (ri_built _ (rreach_inv _ _ _ _ jH_built R)). vm_compute. reflexivity. }
  split; [apply xprinted_text; vm_compute; reflexivity|]. split; [apply front_reads|]. apply threw_state. vm_compute. reflexivity.
Qed.
(** A variable left without factors by an insertion that failed is not in the
    imported model. *)
Theorem C53_lone_variable_refuted : exists src t t' s, rreach kH 6 (careful False) src /\ printable src /\
  export_xml print6 env_id true src = Ok t /\ reads at_front t t' /\ import_xml read6 at_front no_file "" env_id true 40 t' (r_empty kH 6) = Ret tt s /\
  length (g_vars (r_g src)) = 2 /\ length (g_vars (r_g s)) = 1.
Proof.
  set (src := rruns (r_empty kH 6) [RConst (Some 5); RConst (Some 4)]). exists src, (xml_of src), (again at_front (xml_of src)), (state_of (xml_k src)).
  split; [apply k_reach; vm_compute; reflexivity|]. split; [apply printableb_ok; vm_compute; reflexivity|]. split; [apply xprinted_text; vm_compute; reflexivity|].
  split; [apply front_reads|]. split; [apply returns_state; vm_compute; reflexivity|]. split; vm_compute; reflexivity.
Qed.
(** A factor whose insertion as sharer failed is in the model, and is not exported. *)
Theorem C53_unlisted_refuted : exists src t t' s, rreach kH 6 (careful False) src /\ printable src /\ no_lone_variable src /\ clear_sharing src /\
  export_xml print6 env_id true src = Ok t /\ reads at_front t t' /\ import_xml read6 at_front no_file "" env_id true 40 t' (r_empty kH 6) = Ret tt s /\
  length (g_all (r_g src)) = 2 /\ length (g_all (r_g s)) = 1.
Proof.
  set (src := rruns (r_empty kH 6) [RTun (Some 0) None; RTun (Some 3) (Some [exE])]). exists src, (xml_of src), (again at_front (xml_of src)), (state_of (xml_k src)).
  assert (R : rreach kH 6 (careful False) src) by (apply k_reach; vm_compute; reflexivity).
  split; [exact R|]. split; [apply printableb_ok; vm_compute; reflexivity|]. split; [apply no_lone_variableb_ok; vm_compute; reflexivity|].
  split. { apply (clearb_ok QcNum_ok). exact (ri_built _ (rreach_inv _ _ _ _ kH_built R)). vm_compute. reflexivity. }
  split; [apply xprinted_text; vm_compute; reflexivity|]. split; [apply front_reads|]. split; [apply returns_state; vm_compute; reflexivity|]. split; vm_compute; reflexivity.
Qed.
(** Two clusters with factors on the variable A: the factor that shares the weight
    of the second is read in the first. *)
Theorem C53_sharing_refuted : exists src t t' s, rreach kH 6 (careful False) src /\ printable src /\ no_lone_variable src /\ all_listed src /\
  export_xml print6 env_id true src = Ok t /\ reads at_front t t' /\ import_xml read6 at_front no_file "" env_id true 40 t' (r_empty kH 6) = Ret tt s /\
  map (@length nat) (tunable_clusters src) = [2; 2] /\ map (@length nat) (tunable_clusters s) = [3; 1].
Proof.
  set (src := rruns (r_empty kH 6) [RTun (Some 0) None; RTun (Some 2) None; RTun (Some 3) (Some [exA]); RTun (Some 1) (Some [exC; exA])]).
  exists src, (xml_of src), (again at_front (xml_of src)), (state_of (xml_k src)).
  split; [apply k_reach; vm_compute; reflexivity|]. split; [apply printableb_ok; vm_compute; reflexivity|]. split; [apply no_lone_variableb_ok; vm_compute; reflexivity|].
  split; [apply all_listedb_ok; vm_compute; reflexivity|].
  split; [apply xprinted_text; vm_compute; reflexivity|]. split; [apply front_reads|]. split; [apply returns_state; vm_compute; reflexivity|]. split; vm_compute; reflexivity.
Qed.

(** A file written by hand, whose potential has its values in another file: the columns
    of that file are the values of A and of B in the order of the attributes when the
    multimaps insert at the end; they are exchanged when they insert at the front. *)
Definition by_hand : tag :=
  Tag [] [("Variable", Tag [("name", "A"); ("Size", "2")] []); ("Variable", Tag [("name", "B"); ("Size", "2")] []);
          ("Potential", Tag [("var", "A"); ("var", "B"); ("Source", "table")] [])]%string.
Definition table_file (name : string) : option string := if String.eqb name "./table" then Some "0 1 7.000000"%string else None.
Definition asg_hand (names : list (string * nat)) (s : rst (N:=QcNum)) : asg :=
  map (fun v => (v, match find (fun p => String.eqb (fst p) (vname v)) names with Some p => snd p | None => 0 end)) (g_vars (r_g s)).
Notation hand place := (import_xml read6 place table_file "." env_id true 40 by_hand (r_empty jH 5)).
Theorem C53_source_order_refuted : orderly at_end /\ orderly at_front /\
  exists s s', hand at_end = Ret tt s /\ hand at_front = Ret tt s' /\
    let values k := weight (r_h k) (contents k) in
    values s (asg_hand [("A", 0); ("B", 1)]%string s) = q 7 1 /\ values s (asg_hand [("A", 1); ("B", 0)]%string s) = q 0 1 /\
    values s' (asg_hand [("A", 0); ("B", 1)]%string s') = q 0 1 /\ values s' (asg_hand [("A", 1); ("B", 0)]%string s') = q 7 1.
Proof.
  split; [exact at_end_orderly|]. split; [exact at_front_orderly|]. exists (state_of (hand at_end)), (state_of (hand at_front)).
  split; [apply returns_state; vm_compute; reflexivity|]. split; [apply returns_state; vm_compute; reflexivity|]. cbv zeta.
  split; [|split; [|split]]; apply Qc_is_canon; vm_compute; reflexivity.
Qed.

Print Assumptions C53_field_partial.
Print Assumptions C53_graph_partial.
Print Assumptions C53_names_refuted.
Print Assumptions C53_lone_variable_refuted.
Print Assumptions C53_unlisted_refuted.
Print Assumptions C53_sharing_refuted.
Print Assumptions C53_source_order_refuted.
