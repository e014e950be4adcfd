(** C45: a model exported to JSON and imported again. *)
From Coq Require Import Ascii String List Arith ZArith Bool Lia Permutation QArith Qcanon Qround Qabs DecimalString.
From Verif Require Import Res Num Categoric Combs Func FuncProofs GroupProofs FactorProofs FactorApi Special SpecialProofs
  Graph GraphLemmas Clusters Belief Query Gibbs GibbsChain GraphInv EvidInv BeliefInv BigOp BPRun GraphSpec Hist P_Graph BeliefSpec Sums Rebuild BeliefHist Train TrainHist Coherent CRF CRFHist TrainInv FieldHist
  Plan CopyProofs P_Categoric P_Factor Demo BeliefDemo TrainDemo P_Train P_Gradient P_GradientDemo P_Field P_Copy IO TextSpec TextProofs Json JsonRead JsonProofs.
Import ListNotations.
Open Scope nat_scope.

(** {1 Specification} *)
Section Spec.
  Context {N : num}.
  Notation rst := (rst (N:=N)).
  (** what a number becomes when it is printed and read again *)
  Variable rnd : N -> N.
  (** the values of a factor with a rounded weight and rounded images *)
  Definition rounded (f : func N) (c : list nat) : N :=
    match f_exp f with
    | None => rnd (fimg f c)
    | Some w => nexp (rnd w * rnd (fimg f c))%num
    end.
  (** the factor [k] of the second heap is the factor [f] of the first, with
      rounded values, on the variables renamed by [rho] *)
  Definition reads_as (rho : var -> var) (F F' : nat -> func N) (f k : nat) : Prop :=
    f_vars (F' k) = map rho (f_vars (F f)) /\ forall c, valid_comb (fsizes (F f)) c -> fval (F' k) c = rounded (F f) c.
  (** the same for the weight and the values before the exponential *)
  Definition tuned_reads (rho : var -> var) (F F' : nat -> func N) (f k : nat) : Prop :=
    reads_as rho F F' f k /\ f_exp (F' k) = option_map rnd (f_exp (F f)) /\ forall c, valid_comb (fsizes (F f)) c -> fimg (F' k) c = rnd (fimg (F f) c).
  (** variables with the same names and sizes, the same evidences, and the factors
      of the source, each once *)
  Definition read_content (rho : var -> var) (src s : rst) : Prop :=
    (forall v, In v (g_vars (r_g src)) -> vname (rho v) = vname v /\ vsize (rho v) = vsize v) /\
    Permutation (map rho (g_vars (r_g src))) (g_vars (r_g s)) /\
    (forall v k, In v (g_vars (r_g src)) -> (evidence (r_g s) (rho v) k <-> evidence (r_g src) v k)) /\
    exists l, Permutation (g_all (r_g src)) l /\ Forall2 (reads_as rho (r_h src) (r_h s)) l (g_all (r_g s)).
  (** the names have no quotes, backslashes, nor control characters; the sizes are
      numbers of type [int] *)
  Definition printable (s : rst) : Prop :=
    NoDup (map vname (g_vars (r_g s))) /\ forall v, In v (g_vars (r_g s)) -> plain (vname v) /\ fits_int (vsize v).
End Spec.

Section P.
  Context {N : num} (OK : num_ok N).
  Notation rst := (rst (N:=N)).
  Implicit Types s src : rst.
  (** [std::to_string] and [std::atof]: zero is read as zero, and what is printed
      for a non negative number is read as a non negative number *)
  Variable fprint : N -> string.
  Variable atof : string -> N.
  Notation rnd := (fun x => atof (fprint x)).
  Hypothesis fprint_plain : forall x, plain (fprint x).
  Hypothesis rnd_zero : rnd n0 = n0.
  Hypothesis rnd_nonneg : forall x, (n0 <= x)%num -> (n0 <= rnd x)%num.

  Lemma clear_direct src : clear_sharing src -> forall old f r rest c g, tunable_clusters src = old ++ (f :: r) :: rest -> r <> [] -> In c old -> In g c ->
    ~ Permutation (f_vars (r_h src g)) (f_vars (r_h src f)).
  Proof.
    intros CL old f r rest c g E NE Jc Jg. destruct r as [|f' r]; [congruence|]. apply In_nth_error in Jc as (i & Hi).
    assert (Li : i < length old) by (apply nth_error_Some; congruence).
    apply (CL i (length old) c r f f' Li); auto.
    - rewrite E, nth_error_app1; auto.
    - rewrite E, nth_error_app2, Nat.sub_diag by lia. reflexivity.
  Qed.
  Lemma writable_vars P src : coh P src -> no_lone_variable src -> printable src -> Forall writable (g_vars (r_g src)).
  Proof.
    intros C NL [_ PR]. apply Forall_forall. intros v J. destruct (PR v J) as [PL FI]. destruct (NL v J) as (f & Jf & Jv).
    destruct (coh_good OK P src C f) as (_ & M & _). rewrite Forall_forall in M. apply M in Jv as (id & n & name & E). unfold make_variable in E.
    destruct (String.length name =? 0) eqn:L; [discriminate|]. destruct (Nat.eqb_spec n 0) as [|NZ]; [discriminate|]. injection E as <-. cbn [vname vsize] in *.
    split; auto. split; [|split; auto; simpl; lia]. cbn [vname]. intros Z. rewrite Z in L. discriminate.
  Qed.

  (** what the import gives, in the words of the specification *)
  Lemma imported_content P src h0 t0 next e e' V done s : coh P src -> env_ok e -> env_ok e' -> Forall writable (g_vars (r_g src)) -> NoDup (map vname (g_vars (r_g src))) ->
    imported fprint atof src h0 t0 next e e' V done s ->
    read_content rnd (renamed (fresh next V)) src s /\
    (forall f k, In f (g_all (r_g src)) -> Plan.ttwin (B fprint atof src V next e') (place src t0 e) s f k -> tuned_reads rnd (renamed (fresh next V)) (r_h src) (r_h s) f k) /\
    (forall k, In k (g_all (r_g s)) -> t0 <= k).
  Proof.
    intros CS EO EO' WR NM IM. pose proof (im_perm _ _ _ _ _ _ _ _ _ _ _ IM) as VP. pose proof (im_coh _ _ _ _ _ _ _ _ _ _ _ IM) as C.
    assert (VN : NoDup (map vname V)). { eapply Permutation_NoDup; [|exact NM]. apply Permutation_map. symmetry; auto. }
    assert (VW : Forall writable V). { apply Forall_forall. intros v J. rewrite Forall_forall in WR. apply WR. eapply Permutation_in; eauto. }
    assert (VI : forall v, In v (g_vars (r_g src)) -> In v V) by (intros v; apply Permutation_in; symmetry; auto).
    set (rho := renamed (fresh next V)).
    assert (FS : forall f, In f (g_all (r_g src)) -> fsizes (B fprint atof src V next e' f) = fsizes (r_h src f)).
    { intros f J. unfold fsizes, sizes_of. change (map vsize (f_vars (B fprint atof src V next e' f)) = map vsize (f_vars (r_h src f))).
      rewrite (B_vars OK fprint atof fprint_plain rnd_zero rnd_nonneg P src CS V VP VW VN next e' EO' f J).
      apply (rho_sizes V next VN). intros v Jv. apply VI. eapply CopyProofs.src_vars_in; eauto. }
    assert (RD : forall f k, In f (g_all (r_g src)) -> Plan.twin (B fprint atof src V next e') (place src t0 e) s f k -> reads_as rnd rho (r_h src) (r_h s) f k).
    { intros f k J (TG & TV & _). destruct (B_spec OK fprint atof fprint_plain rnd_zero rnd_nonneg P src CS V VP VW VN next e' EO' f J) as (_ & BG & BE & BI). split.
      - unfold f_vars at 1. rewrite TG, BG. reflexivity.
      - intros c VC. rewrite TV by (rewrite FS; auto). unfold fval, transform, rounded. rewrite BE, BI by auto. destruct (f_exp (r_h src f)); reflexivity. }
    split; [split; [|split; [|split]]|split].
    - intros v J. apply (rho_spec V next VN); auto.
    - assert (P1 : Permutation (map rho (g_vars (r_g src))) (map rho V)) by (apply Permutation_map; symmetry; auto).
      rewrite P1. unfold rho. rewrite (rho_vars V next VN). apply NoDup_Permutation.
      + apply NoDup_map_inv with (f := vname). rewrite fresh_names. auto.
      + apply NoDup_map_inv with (f := vkey). apply (proj1 (ch_inv _ _ C)).
      + intros w. symmetry. apply (im_vars _ _ _ _ _ _ _ _ _ _ _ IM).
    - intros v k J. destruct (rho_spec V next VN v (VI v J)) as (R1 & R2 & R3). fold rho in R1, R2, R3.
      rewrite (ev_evidence True s (rho v) k C), (ev_evidence P src v k CS J); [|apply (im_vars _ _ _ _ _ _ _ _ _ _ _ IM); exact R1].
      unfold sp_evidence. rewrite R2, R3. change (vname v, vsize v) with (vkey v). rewrite (im_ev _ _ _ _ _ _ _ _ _ _ _ IM v (VI v J)). tauto.
    - exists done. split. symmetry. apply (im_done _ _ _ _ _ _ _ _ _ _ _ IM).
      eapply F2_mono; [|exact (im_facs _ _ _ _ _ _ _ _ _ _ _ IM)]. intros f k Jf _. apply RD. eapply Permutation_in; [apply (im_done _ _ _ _ _ _ _ _ _ _ _ IM)|exact Jf].
    - intros f k J (T & E & I). destruct (B_spec OK fprint atof fprint_plain rnd_zero rnd_nonneg P src CS V VP VW VN next e' EO' f J) as (_ & BG & BE & BI). split; auto. split. { rewrite E, BE. reflexivity. }
      intros c VC. rewrite I by (rewrite FS; auto). apply BI; auto.
    - intros k J. destruct (F2_in_r _ _ _ (im_facs _ _ _ _ _ _ _ _ _ _ _ IM) k J) as (f & _ & _ & _ & X & _). exact X.
  Qed.
  Lemma read_weights rho src s : rinv src -> rinv s -> Forall2 (Forall2 (tuned_reads rnd rho (r_h src) (r_h s))) (tunable_clusters src) (tunable_clusters s) ->
    exists ws, get_weights src = Ok ws /\ get_weights s = Ok (map rnd ws).
  Proof.
    intros RS R CL. destruct (get_weights_ok src RS) as (ws & E & L & Q). destruct (get_weights_ok s R) as (ws' & E' & L' & Q'). exists ws. split; auto. rewrite E'. f_equal.
    assert (LC : length (tunable_clusters src) = length (tunable_clusters s)). { clear - CL. induction CL; simpl; auto. }
    apply nth_error_ext'. intros k. destruct (nth_error ws' k) as [w'|] eqn:W'; destruct (nth_error ws k) as [w|] eqn:W.
    - rewrite nth_error_map, W. simpl. f_equal. assert (Lk : k < length (tunable_clusters src)) by (rewrite <- L; apply nth_error_Some; congruence).
      destruct (nth_error (tunable_clusters src) k) as [c|] eqn:C; [|apply nth_error_None in C; lia].
      destruct (nth_error (tunable_clusters s) k) as [c'|] eqn:C'; [|apply nth_error_None in C'; lia].
      assert (F : Forall2 (tuned_reads rnd rho (r_h src) (r_h s)) c c').
      { clear - CL C C'. revert k C C'. induction CL; intros [|k] C C'; simpl in *; try discriminate; [congruence|eauto]. }
      pose proof (ri_ne _ RS c (nth_error_In _ _ C)) as NE. destruct F as [|f k' c c' (_ & X & _) F]; [congruence|].
      rewrite (Q k _ w C W f (or_introl eq_refl)) in X. rewrite (Q' k _ w' C' W' k' (or_introl eq_refl)) in X. simpl in X. congruence.
    - apply nth_error_None in W. assert (k < length ws') by (apply nth_error_Some; congruence). lia.
    - apply nth_error_None in W'. assert (k < length ws) by (apply nth_error_Some; congruence). lia.
    - rewrite nth_error_map, W. reflexivity.
  Qed.

  (** {1 The round trip} *)

  (** A random field whose variables have distinct names without special
      characters and all belong to a factor, whose factors are all listed and whose
      sharing is clear: the export returns, its import into an empty random field
      returns, and the imported field has the same variables, evidences, factors and
      clusters, with the weights and the images printed and read; it is a random
      field as any other. The orders in which the exporter and the importer visit
      the sets are any. *)
  Lemma field_round_trip : forall src e e' h' top' next, coh False src -> env_ok e -> env_ok e' ->
    (forall f, built (h' f)) -> printable src -> no_lone_variable src -> all_listed src -> clear_sharing src ->
    exists j s rho, export_json fprint e true src = Ok j /\ import_json atof e' true next j (r_empty h' top') = Ret tt s /\
      read_content rnd rho src s /\
      Forall2 (Forall2 (tuned_reads rnd rho (r_h src) (r_h s))) (tunable_clusters src) (tunable_clusters s) /\
      (exists ws, get_weights src = Ok ws /\ get_weights s = Ok (map rnd ws)) /\
      (forall f, f < top' -> r_h s f = h' f) /\
      (forall k, In k (g_all (r_g s)) -> top' <= k) /\
      rreach h' top' alert s.
  Proof.
    intros src e e' h' top' next CS E E' Hb' PR NL AL CL. pose proof (ch_r _ _ CS) as RS.
    pose proof (writable_vars _ src CS NL PR) as WR.
    assert (AL' : forall f, In f (g_all (r_g src)) -> In f (r_const src ++ concat (tunable_clusters src))).
    { intros f J. apply in_or_app. destruct (AL f J) as [J'|(c & Jc & Jf)]; auto. right. apply in_concat. eauto. }
    destruct (round_trip OK fprint atof fprint_plain rnd_zero rnd_nonneg False src CS WR (proj1 PR) NL AL' h' top' Hb' next e e' E E' true true (or_introl eq_refl) (fun _ => clear_direct src CL))
      as (j & s & V & done & Q1 & Q2 & IM & CC).
    destruct (imported_content False src h' top' next e e' V done s CS E E' WR (proj1 PR) IM) as (RC & TR & TK).
    assert (CR : Forall2 (Forall2 (tuned_reads rnd (renamed (fresh next V)) (r_h src) (r_h s))) (tunable_clusters src) (tunable_clusters s)).
    { eapply F2_mono; [|exact CC]. intros c d Jc _ F. eapply F2_mono; [|exact F]. intros f k Jf _. apply TR. apply (ri_in _ RS). apply in_or_app. right. apply (ri_tun _ RS). apply in_concat. eauto. }
    exists j, s, (renamed (fresh next V)). split; auto. split; auto. split; auto. split; auto. split.
    - eapply read_weights; eauto. apply (ch_r _ _ (im_coh _ _ _ _ _ _ _ _ _ _ _ IM)).
    - split. apply (im_heap _ _ _ _ _ _ _ _ _ _ _ IM). split; auto. apply (im_reach _ _ _ _ _ _ _ _ _ _ _ IM).
  Qed.
  Theorem C45_field_partial : forall h top src e e' h' top' next, (forall f, built (h f)) -> rreach h top (careful False) src -> env_ok e -> env_ok e' ->
    (forall f, built (h' f)) -> printable src -> no_lone_variable src -> all_listed src -> clear_sharing src ->
    exists j s rho, export_json fprint e true src = Ok j /\ import_json atof e' true next j (r_empty h' top') = Ret tt s /\
      read_content rnd rho src s /\
      Forall2 (Forall2 (tuned_reads rnd rho (r_h src) (r_h s))) (tunable_clusters src) (tunable_clusters s) /\
      (exists ws, get_weights src = Ok ws /\ get_weights s = Ok (map rnd ws)) /\
      (forall f, f < top' -> r_h s f = h' f) /\
      (forall k, In k (g_all (r_g s)) -> top' <= k) /\
      rreach h' top' alert s.
  Proof. intros h top src e e' h' top' next Hb R. apply field_round_trip. eapply rreach_coh; eauto. Qed.

  (** The import into a [Graph] of a random field, or of a graph: all the factors
      are constant ones, whatever the sharing was. *)
  Lemma graph_round_trip : forall src e e' h' top' next tun, coh False src -> env_ok e -> env_ok e' ->
    (forall f, built (h' f)) -> printable src -> no_lone_variable src -> all_listed src -> tun = true \/ tunable_clusters src = [] ->
    exists j s rho, export_json fprint e tun src = Ok j /\ import_json atof e' false next j (r_empty h' top') = Ret tt s /\
      read_content rnd rho src s /\ tunable_clusters s = [] /\
      (forall f, f < top' -> r_h s f = h' f) /\
      (forall k, In k (g_all (r_g s)) -> top' <= k) /\
      rreach h' top' alert s.
  Proof.
    intros src e e' h' top' next tun CS E E' Hb' PR NL AL TU. pose proof (ch_r _ _ CS) as RS.
    pose proof (writable_vars _ src CS NL PR) as WR.
    assert (AL' : forall f, In f (g_all (r_g src)) -> In f (r_const src ++ concat (tunable_clusters src))).
    { intros f J. apply in_or_app. destruct (AL f J) as [J'|(c & Jc & Jf)]; auto. right. apply in_concat. eauto. }
    destruct (round_trip OK fprint atof fprint_plain rnd_zero rnd_nonneg False src CS WR (proj1 PR) NL AL' h' top' Hb' next e e' E E' tun false TU) as (j & s & V & done & Q1 & Q2 & IM & CC).
    { intros X; discriminate X. }
    destruct (imported_content False src h' top' next e e' V done s CS E E' WR (proj1 PR) IM) as (RC & TR & TK).
    exists j, s, (renamed (fresh next V)). split; auto. split; auto. split; auto. split; auto.
    split. apply (im_heap _ _ _ _ _ _ _ _ _ _ _ IM). split; auto. apply (im_reach _ _ _ _ _ _ _ _ _ _ _ IM).
  Qed.
  Theorem C45_graph_partial : forall h top src e e' h' top' next tun, (forall f, built (h f)) -> rreach h top (careful False) src -> env_ok e -> env_ok e' ->
    (forall f, built (h' f)) -> printable src -> no_lone_variable src -> all_listed src -> tun = true \/ tunable_clusters src = [] ->
    exists j s rho, export_json fprint e tun src = Ok j /\ import_json atof e' false next j (r_empty h' top') = Ret tt s /\
      read_content rnd rho src s /\ tunable_clusters s = [] /\
      (forall f, f < top' -> r_h s f = h' f) /\
      (forall k, In k (g_all (r_g s)) -> top' <= k) /\
      rreach h' top' alert s.
  Proof. intros h top src e e' h' top' next tun Hb R. apply graph_round_trip. eapply rreach_coh; eauto. Qed.
End P.

(** {1 The same distribution} *)
Section Renamed.
  Context {N : num} (OK : num_ok N).
  Variable rho : var -> var.
  (** the same assignment, on the renamed variables *)
  Definition rename (x : asg) : asg := map (fun p => (rho (fst p), snd p)) x.
  Lemma all_asg_rename vs : (forall v, In v vs -> vsize (rho v) = vsize v) -> all_asg (map rho vs) = map rename (all_asg vs).
  Proof.
    induction vs as [|v vs IH]; intros Q; auto. cbn [map all_asg]. rewrite Q by (left; auto). rewrite IH by (intros; apply Q; right; auto).
    generalize (seq 0 (vsize v)). intros ks. induction ks as [|k ks IK]; auto. cbn [flat_map]. rewrite map_app, IK. f_equal. rewrite !map_map. reflexivity.
  Qed.
  Lemma asg_domain vs : forall x, In x (all_asg vs) -> map fst x = vs.
  Proof.
    induction vs as [|v vs IH]; simpl; intros x J. destruct J as [<-|[]]; auto. apply in_flat_map in J as (k & _ & J). apply in_map_iff in J as (y & <- & J). simpl. f_equal. auto.
  Qed.
  Lemma val_rename (x : asg) v : (forall w, In w (map fst x) -> rho v = rho w -> v = w) -> val (rename x) (rho v) = val x v.
  Proof.
    induction x as [|[w k] x IH]; intros Q; auto. cbn [rename map val fst snd]. destruct (same_instance v w) eqn:S1.
    - apply same_instance_spec in S1. subst w. assert (S2 : same_instance (rho v) (rho v) = true) by (apply same_instance_spec; auto). rewrite S2. auto.
    - destruct (same_instance (rho v) (rho w)) eqn:S2. { exfalso. apply same_instance_spec in S2. apply same_instance_false in S1. apply S1. apply Q; auto. left; auto. }
      apply IH. intros u Ju. apply Q. right; auto.
  Qed.

  Variables (F F' : nat -> func N) (A A' : spec) (l : list nat).
  Hypothesis GF : goods F.
  Hypothesis GF' : goods F'.
  Hypothesis ND : NoDup (sp_vars A).
  Hypothesis ND' : NoDup (sp_vars A').
  Hypothesis FV : forall f, In f (sp_facs A) -> incl (f_vars (F f)) (sp_vars A).
  Hypothesis FV' : forall f, In f (sp_facs A') -> incl (f_vars (F' f)) (sp_vars A').
  Hypothesis RS : forall v, In v (sp_vars A) -> vsize (rho v) = vsize v.
  Hypothesis RI : forall v w, In v (sp_vars A) -> In w (sp_vars A) -> rho v = rho w -> v = w.
  Hypothesis PV : Permutation (map rho (sp_vars A)) (sp_vars A').
  Hypothesis EV : forall v, In v (sp_vars A) -> sp_evidence A' (rho v) = sp_evidence A v.
  Hypothesis PL : Permutation (sp_facs A) l.
  Hypothesis TW : Forall2 (fun f k => f_vars (F' k) = map rho (f_vars (F f)) /\ forall c, valid_comb (fsizes (F f)) c -> fval (F' k) c = fval (F f) c) l (sp_facs A').

  Lemma val_renamed x v : In x (all_asg (sp_vars A)) -> In v (sp_vars A) -> val (rename x) (rho v) = val x v.
  Proof. intros J Jv. apply val_rename. intros w Jw. apply RI; auto. rewrite <- (asg_domain _ _ J). auto. Qed.
  Lemma renamed_weight x : In x (all_asg (sp_vars A)) -> weight F' A' (rename x) = weight F A x.
  Proof.
    intros J. unfold weight. rewrite (prodL_perm OK _ _ _ PL).
    assert (I : forall f, In f l -> In f (sp_facs A)) by (intros f Q; eapply Permutation_in; [symmetry; exact PL|exact Q]).
    clear PL FV' GF'. induction TW as [|f k l0 ks [E V] T IH]; simpl; auto. rewrite IH by (auto; intros; apply I; simpl; auto). f_equal. rewrite E, map_map.
    assert (If : In f (sp_facs A)) by (apply I; simpl; auto).
    assert (EQ : map (fun v => val (rename x) (rho v)) (f_vars (F f)) = map (val x) (f_vars (F f))).
    { apply map_ext_in. intros v Jv. apply val_renamed; auto. apply (FV f If); auto. }
    rewrite EQ. apply V. apply (in_range F A FV f x); auto. intros v Jv. apply (asg_val_range (sp_vars A)); auto.
  Qed.
  Lemma renamed_agrees x : In x (all_asg (sp_vars A)) -> agrees A' (rename x) = agrees A x.
  Proof.
    intros J. unfold agrees. apply eq_true_iff_eq. rewrite !forallb_forall. split; intros Q v Jv.
    - rewrite <- EV, <- (val_renamed x v) by auto. apply Q. eapply Permutation_in; [exact PV|]. apply in_map; auto.
    - assert (Jv' : In v (map rho (sp_vars A))) by (eapply Permutation_in; [symmetry; exact PV|exact Jv]). apply in_map_iff in Jv' as (w & <- & Jw).
      rewrite EV, val_renamed by auto. auto.
  Qed.
  Lemma renamed_mass P : (forall x y, (forall v, In v (sp_vars A') -> val x v = val y v) -> P x = P y) ->
    mass (weight F' A') A' P = mass (weight F A) A (fun x => P (rename x)).
  Proof.
    intros PX. rewrite <- !total_sum. unfold total.
    rewrite (all_asg_perm OK SUM _ _ (Permutation_sym PV) ND' (fun x => if agrees A' x && P x then weight F' A' x else n0)).
    - rewrite all_asg_rename by auto. rewrite bigL_map. apply bigL_ext. intros x J. rewrite renamed_agrees, renamed_weight; auto.
    - intros x y Q. rewrite (agrees_val A' x y Q), (weight_val F' A' FV' x y Q), (PX x y Q). auto.
    - intros x R. destruct (_ && _). apply (weight_nn OK F' A' GF' FV'); auto. apply (nle_refl OK).
  Qed.
  Lemma renamed_marginal v j : In v (sp_vars A) -> marginal (weight F' A') A' (rho v) j = marginal (weight F A) A v j.
  Proof.
    intros J. unfold marginal. rewrite !renamed_mass; auto.
    - f_equal. rewrite <- !total_sum. unfold total. apply bigL_ext. intros x Jx. unfold takes. rewrite val_renamed; auto.
    - intros x y Q. unfold takes. rewrite Q; auto. eapply Permutation_in; [exact PV|]. apply in_map; auto.
  Qed.
End Renamed.

Section Distribution.
  Context {N : num} (OK : num_ok N).
  Notation rst := (rst (N:=N)).
  (** the weights and the images of the factors of the model are read as they are printed *)
  Definition exact_values (rnd : N -> N) (s : rst) : Prop :=
    forall f, In f (g_all (r_g s)) -> (forall w, f_exp (r_h s f) = Some w -> rnd w = w) /\
      forall c, valid_comb (fsizes (r_h s f)) c -> rnd (fimg (r_h s f) c) = fimg (r_h s f) c.

  (** When no value of the model is changed by the printing, the imported model has
      the distribution of the source, with its variables renamed. *)
  Lemma read_distribution : forall rnd src s rho, coh False src -> coh False s -> printable src -> read_content rnd rho src s -> exact_values rnd src ->
    (forall P, (forall x y, (forall v, In v (sp_vars (contents s)) -> val x v = val y v) -> P x = P y) ->
       mass (weight (r_h s) (contents s)) (contents s) P = mass (weight (r_h src) (contents src)) (contents src) (fun x => P (rename rho x))) /\
    (forall v j, In v (sp_vars (contents src)) ->
       marginal (weight (r_h s) (contents s)) (contents s) (rho v) j = marginal (weight (r_h src) (contents src)) (contents src) v j).
  Proof.
    intros rnd src s rho CS C [NM _] (RN & PV & EV & l & PL & TW) EX.
    assert (NDs : NoDup (sp_vars (contents src))) by (eapply NoDup_map_inv; apply (co_vars _ _ _ (proj1 (ch_inv _ _ CS)))).
    assert (NDs' : NoDup (sp_vars (contents s))) by (eapply NoDup_map_inv; apply (co_vars _ _ _ (proj1 (ch_inv _ _ C)))).
    assert (FV : forall f, In f (sp_facs (contents src)) -> incl (f_vars (r_h src f)) (sp_vars (contents src))).
    { intros f J v Jv. eapply (CopyProofs.src_vars_in False src CS f v); auto. }
    assert (FV' : forall f, In f (sp_facs (contents s)) -> incl (f_vars (r_h s f)) (sp_vars (contents s))).
    { intros f J v Jv. eapply (CopyProofs.src_vars_in False s C f v); auto. }
    assert (RS : forall v, In v (sp_vars (contents src)) -> vsize (rho v) = vsize v) by (intros v J; apply (RN v J)).
    assert (RI : forall v w, In v (sp_vars (contents src)) -> In w (sp_vars (contents src)) -> rho v = rho w -> v = w).
    { intros v w Jv Jw E. apply (name_inj _ NM); auto. rewrite <- (proj1 (RN v Jv)), <- (proj1 (RN w Jw)). congruence. }
    assert (EVs : forall v, In v (sp_vars (contents src)) -> sp_evidence (contents s) (rho v) = sp_evidence (contents src) v).
    { intros v J. change (In v (g_vars (r_g src))) in J. assert (J' : In (rho v) (g_vars (r_g s))) by (eapply Permutation_in; [exact PV|]; apply in_map; auto).
      pose proof (fun k => ev_evidence False src v k CS J) as Q. pose proof (fun k => ev_evidence False s (rho v) k C J') as Q'.
      destruct (sp_evidence (contents src) v) as [k|] eqn:E.
      - apply Q', EV, Q; auto.
      - destruct (sp_evidence (contents s) (rho v)) as [k|] eqn:E'; auto. assert (W : None = Some k); [|discriminate]. apply Q, EV, Q'; auto. }
    assert (TWs : Forall2 (fun f k => f_vars (r_h s k) = map rho (f_vars (r_h src f)) /\ forall c, valid_comb (fsizes (r_h src f)) c -> fval (r_h s k) c = fval (r_h src f) c) l (sp_facs (contents s))).
    { eapply F2_mono; [|exact TW]. intros f k Jf _ [E V]. split; auto. intros c VC. rewrite V by auto. unfold rounded, fval, transform.
      assert (Jf' : In f (g_all (r_g src))) by (eapply Permutation_in; [symmetry; exact PL|exact Jf]). destruct (EX f Jf') as [EW EI]. rewrite EI by auto.
      destruct (f_exp (r_h src f)) as [w|]; auto. rewrite (EW w); auto. }
    split.
    - intros P PX. eapply (renamed_mass OK rho (r_h src) (r_h s) (contents src) (contents s) l); eauto. apply (coh_good OK False); auto.
    - intros v j J. eapply (renamed_marginal OK rho (r_h src) (r_h s) (contents src) (contents s) l); eauto. apply (coh_good OK False); auto.
  Qed.
  Theorem C45_distribution : forall rnd h top h' top' src s rho, (forall f, built (h f)) -> (forall f, built (h' f)) ->
    rreach h top (careful False) src -> rreach h' top' (careful False) s -> printable src -> read_content rnd rho src s -> exact_values rnd src ->
    (forall P, (forall x y, (forall v, In v (sp_vars (contents s)) -> val x v = val y v) -> P x = P y) ->
       mass (weight (r_h s) (contents s)) (contents s) P = mass (weight (r_h src) (contents src)) (contents src) (fun x => P (rename rho x))) /\
    (forall v j, In v (sp_vars (contents src)) ->
       marginal (weight (r_h s) (contents s)) (contents s) (rho v) j = marginal (weight (r_h src) (contents src)) (contents src) v j).
  Proof. intros rnd h top h' top' src s rho Hb Hb' R R'. exact (read_distribution rnd src s rho (rreach_coh False h top src Hb R) (rreach_coh False h' top' s Hb' R')). Qed.
End Distribution.

(** {1 Examples}

    Numbers are printed as by [std::to_string]: six decimals, the nearest value;
    and read as by [std::atof] on such texts. *)
Definition micro (x : Qc) : Z := Qfloor (Qabs.Qabs (this x) * 1000000 + (1 # 2))%Q.
Fixpoint pad (n : nat) (u : Decimal.uint) : Decimal.uint := match n with O => u | S k => Decimal.D0 (pad k u) end.
Definition digits (z : Z) : string := let u := N.to_uint (Z.to_N z) in DecimalString.NilEmpty.string_of_uint (pad (7 - Decimal.nb_digits u) u).
Definition with_point (s : string) : string := substring 0 (String.length s - 6) s ++ "." ++ substring (String.length s - 6) 6 s.
Definition print6 (x : QcNum) : string := (if Qlt_le_dec (this x) 0 then "-" else "") ++ with_point (digits (micro x)).
Fixpoint without (c : ascii) (s : string) : string :=
  match s with EmptyString => EmptyString | String d r => if Ascii.eqb c d then without c r else String d (without c r) end.
Definition read_digits (s : string) : Z := match DecimalString.NilEmpty.uint_of_string (without "." s) with Some u => Z.of_N (N.of_uint u) | None => 0 end.
Definition read6 (s : string) : QcNum :=
  match s with
  | String "-" r => Q2Qc (- (read_digits r) # 1000000)
  | _ => Q2Qc (read_digits s # 1000000)
  end.

Lemma all_append P a b : all_chars P a -> all_chars P b -> all_chars P (a ++ b).
Proof. induction a as [|c a IH]; simpl; intuition. Qed.
Lemma all_substring P s : all_chars P s -> forall n m, all_chars P (substring n m s).
Proof.
  induction s as [|c s IH]; intros H [|n] [|m]; simpl in *; auto.
  - split; [tauto|]. apply IH. tauto.
  - apply IH. tauto.
  - apply IH. tauto.
Qed.
Lemma point_chars z : all_chars (fun c => plain_char c /\ c <> "-"%char) (with_point (digits z)).
Proof.
  assert (D : all_chars (fun c => plain_char c /\ c <> "-"%char) (digits z)).
  { unfold digits. generalize (pad (7 - Decimal.nb_digits (N.to_uint (Z.to_N z))) (N.to_uint (Z.to_N z))). intros u.
    induction u; simpl; auto; (split; [split; [repeat split; vm_compute; try discriminate; lia|discriminate]|auto]). }
  unfold with_point. apply all_append. apply all_substring; auto. apply (all_append _ "."). split; [split; [repeat split; vm_compute; try discriminate; lia|discriminate]|exact Logic.I].
  apply all_substring; auto.
Qed.
Lemma print6_plain x : plain (print6 x).
Proof.
  unfold print6, plain. apply all_append.
  - destruct (Qlt_le_dec (this x) 0); simpl; auto. split; auto. repeat split; vm_compute; try discriminate; lia.
  - eapply all_imp; [|apply point_chars]. intros c Q. apply Q.
Qed.
Lemma read6_zero : read6 (print6 (n0 : QcNum)) = n0.
Proof. apply (ok_eqb _ QcNum_ok). vm_compute. reflexivity. Qed.
Lemma read6_nonneg x : (n0 <= x)%num -> (n0 <= read6 (print6 x))%num.
Proof.
  intros L. assert (G : forall s, all_chars (fun c => plain_char c /\ c <> "-"%char) s -> read6 s = Q2Qc (read_digits s # 1000000)).
  { intros [|c s] H; [reflexivity|]. destruct H as [[_ NE] _]. unfold read6. destruct c as [[] [] [] [] [] [] [] []]; try reflexivity. exfalso. apply NE. reflexivity. }
  unfold print6. destruct (Qlt_le_dec (this x) 0) as [Lx|Lx].
  - exfalso. assert (X : (x < Q2Qc 0)%Qc). { unfold Qclt. change (this (Q2Qc 0)) with 0%Q. exact Lx. } apply Qc_ltb_spec in X. simpl in L. congruence.
  - cbn [append]. rewrite G by apply point_chars. simpl. destruct (Qc_ltb _ _) eqn:X; auto. exfalso. apply Qc_ltb_spec in X. unfold Qclt in X.
    change (this (Q2Qc 0)) with 0%Q in X. unfold Q2Qc in X. cbn [this] in X. rewrite Qred_correct in X. unfold Qlt in X. cbn [Qnum Qden] in X.
    assert (Y : (0 <= read_digits (with_point (digits (micro x))))%Z). { unfold read_digits. destruct (NilEmpty.uint_of_string _); lia. } lia.
Qed.
Notation rnd6 := (fun x => read6 (print6 x)).

(** decisions *)
Fixpoint plainb (s : string) : bool :=
  match s with EmptyString => true | String c r => (32 <=? nat_of_ascii c) && negb (nat_of_ascii c =? 34) && negb (nat_of_ascii c =? 92) && plainb r end.
Lemma plainb_ok s : plainb s = true -> plain s.
Proof.
  induction s as [|c s IH]; intros Q. exact Logic.I. cbn [plainb] in Q. apply andb_true_iff in Q as [Q1 Q]. apply andb_true_iff in Q1 as [Q1 Q3]. apply andb_true_iff in Q1 as [Q1 Q2].
  split; [|apply IH; exact Q]. apply Nat.leb_le in Q1. apply negb_true_iff, Nat.eqb_neq in Q2. apply negb_true_iff, Nat.eqb_neq in Q3. split; auto.
Qed.
Definition printableb {N : num} (s : rst (N:=N)) : bool :=
  (length (nodup string_dec (map vname (g_vars (r_g s)))) =? length (g_vars (r_g s))) &&
  forallb (fun v => plainb (vname v) && Z.ltb (Z.of_nat (vsize v)) (2 ^ 31)) (g_vars (r_g s)).
Lemma printableb_ok {N : num} (s : rst (N:=N)) : printableb s = true -> printable s.
Proof.
  intros Q. apply andb_true_iff in Q as [Q1 Q2]. split.
  - apply Nat.eqb_eq in Q1. rewrite <- (map_length vname) in Q1. revert Q1. generalize (map vname (g_vars (r_g s))). intros l E.
    assert (X : NoDup (nodup string_dec l)) by apply NoDup_nodup. apply (NoDup_incl_NoDup X). rewrite E; auto. intros x. apply nodup_In.
  - rewrite forallb_forall in Q2. intros v J. apply Q2, andb_true_iff in J as [J1 J2]. split. apply plainb_ok; auto. apply Z.ltb_lt; auto.
Qed.
Definition exactb (s : rst (N:=QcNum)) : bool :=
  forallb (fun f => match f_exp (r_h s f) with Some w => neqb (rnd6 w) w | None => true end &&
    forallb (fun c => neqb (rnd6 (fimg (r_h s f) c)) (fimg (r_h s f) c)) (all_combs (fsizes (r_h s f)))) (g_all (r_g s)).
Lemma exactb_ok s : exactb s = true -> exact_values rnd6 s.
Proof.
  unfold exactb. rewrite forallb_forall. intros Q f J. apply Q, andb_true_iff in J as [J1 J2]. split.
  - intros w E. rewrite E in J1. apply (ok_eqb _ QcNum_ok). exact J1.
  - intros c VC. rewrite forallb_forall in J2. apply all_combs_In in VC. apply (ok_eqb _ QcNum_ok). exact (J2 c VC).
Qed.

(** the model of C49: A - C - D - E with evidence on E, one weight shared by A - C
    and C - D, constant factors on A and D - E *)
Lemma field_printable : printable field_state.
Proof. apply printableb_ok. vm_compute. reflexivity. Qed.
Lemma field_exact : exact_values rnd6 field_state.
Proof. apply exactb_ok. vm_compute. reflexivity. Qed.

Example C45_field_example : exists j s rho, export_json print6 env_rev true field_state = Ok j /\ import_json read6 env_id true 40 j (r_empty gH 6) = Ret tt s /\
  read_content rnd6 rho field_state s /\ (exists ws, get_weights field_state = Ok ws /\ get_weights s = Ok (map rnd6 ws)) /\ evidence (r_g s) (rho exE) 1.
Proof.
  destruct (C45_field_partial QcNum_ok print6 read6 print6_plain read6_zero read6_nonneg gH 6 field_state env_rev env_id gH 6 40 gH_built (alert_careful _ _ _ field_reach)
    env_rev_ok env_id_ok gH_built field_printable field_lone field_listed field_clear) as (j & s & rho & Q1 & Q2 & RC & _ & WS & _).
  exists j, s, rho. split; [exact Q1|]. split; [exact Q2|]. split; [exact RC|]. split; [exact WS|]. destruct RC as (_ & _ & EV & _). apply EV.
  - vm_compute. tauto.
  - exists 3. split; vm_compute; reflexivity.
Qed.
Example C45_graph_example : exists j s rho, export_json print6 env_rev true field_state = Ok j /\ import_json read6 env_id false 40 j (r_empty gH 6) = Ret tt s /\
  read_content rnd6 rho field_state s /\ tunable_clusters s = [].
Proof.
  destruct (C45_graph_partial QcNum_ok print6 read6 print6_plain read6_zero read6_nonneg gH 6 field_state env_rev env_id gH 6 40 true gH_built (alert_careful _ _ _ field_reach)
    env_rev_ok env_id_ok gH_built field_printable field_lone field_listed (or_introl eq_refl)) as (j & s & rho & Q1 & Q2 & RC & TC & _).
  exists j, s, rho. split; [exact Q1|]. split; [exact Q2|]. split; [exact RC|exact TC].
Qed.
Example C45_distribution_example : exists j s rho, export_json print6 env_rev true field_state = Ok j /\ import_json read6 env_id true 40 j (r_empty gH 6) = Ret tt s /\
  forall i, marginal (weight (r_h s) (contents s)) (contents s) (rho exC) i = marginal (weight (r_h field_state) (contents field_state)) (contents field_state) exC i.
Proof.
  destruct (C45_field_partial QcNum_ok print6 read6 print6_plain read6_zero read6_nonneg gH 6 field_state env_rev env_id gH 6 40 gH_built (alert_careful _ _ _ field_reach)
    env_rev_ok env_id_ok gH_built field_printable field_lone field_listed field_clear) as (j & s & rho & Q1 & Q2 & RC & _ & _ & _ & _ & R).
  exists j, s, rho. split; [exact Q1|]. split; [exact Q2|]. intros i.
  apply (C45_distribution QcNum_ok rnd6 gH 6 gH 6 field_state s rho gH_built gH_built (alert_careful _ _ _ field_reach) (alert_careful _ _ _ R) field_printable RC field_exact).
  vm_compute. right. left. reflexivity.
Qed.

(** {1 The statement of C45 does not hold for every model} *)
Definition quoted : var := mkVar 20 ("a" ++ String (ascii_of_nat 34) "b") 2.
Definition jH (f : nat) : func QcNum :=
  match f with
  | 0 => table [exA] [([0], q 1 1); ([1], q 3 1)]
  | 1 => table [exA3] [([0], q 1 1); ([2], q 3 1)]
  | 2 => table [quoted] [([0], q 1 1); ([1], q 3 1)]
  | 3 => table [exC] [([0], q 1 10000000); ([1], q 1 10000000)]
  | _ => table [exC] [([0], q 1 1)]
  end.
Lemma jH_built f : built (jH f).
Proof.
  do 4 (destruct f as [|f]; [apply table_built; repeat constructor; auto using exA_made, exC_made, exA3_made; exists 20, 2, (vname quoted); reflexivity|]).
  apply table_built; repeat constructor; auto using exC_made.
Qed.
Lemma j_reach ops : rsteady ops (r_empty jH 5) = true -> rreach jH 5 (careful False) (rruns (r_empty jH 5) ops).
Proof. intros Q. apply steady_careful. apply rruns_steady. constructor. exact Q. Qed.
Definition text_of (src : rst (N:=QcNum)) : json := match export_json print6 env_id true src with Ok j => j | _ => JNull end.
Definition printed (src : rst (N:=QcNum)) : bool := match export_json print6 env_id true src with Ok _ => true | _ => false end.
Lemma printed_text src : printed src = true -> export_json print6 env_id true src = Ok (text_of src).
Proof. unfold printed, text_of. destruct (export_json print6 env_id true src); intros Q; try discriminate Q. reflexivity. Qed.
Notation read_again src := (import_json read6 env_id true 40 (text_of src) (r_empty jH 5)).

(** Two variables with the same name and different sizes: the factors are read on
    one of them, and the import throws. *)
Theorem C45_names_refuted : exists src j s, rreach jH 5 (careful False) src /\ no_lone_variable src /\ all_listed src /\ clear_sharing src /\
  export_json print6 env_id true src = Ok j /\ import_json read6 env_id true 40 j (r_empty jH 5) = Thr s.
Proof.
  set (src := rruns (r_empty jH 5) [RConst (Some 0); RConst (Some 1)]). exists src, (text_of src), (state_of (read_again src)).
  assert (R : rreach jH 5 (careful False) src) by (apply j_reach; vm_compute; reflexivity).
  split; [exact R|]. split; [apply no_lone_variableb_ok; vm_compute; reflexivity|]. split; [apply all_listedb_ok; vm_compute; reflexivity|].
  split. { apply (clearb_ok QcNum_ok). exact (ri_built _ (rreach_inv _ _ _ _ jH_built R)). vm_compute. reflexivity. }
  split; [apply printed_text; vm_compute; reflexivity|]. apply threw_state. vm_compute. reflexivity.
Qed.
(** A quote in a name is read as a backslash and a quote. *)
Theorem C45_quotes_refuted : exists src j s, rreach jH 5 (careful False) src /\ no_lone_variable src /\ all_listed src /\ clear_sharing src /\
  export_json print6 env_id true src = Ok j /\ import_json read6 env_id true 40 j (r_empty jH 5) = Ret tt s /\
  map vname (g_vars (r_g src)) = [("a" ++ String (ascii_of_nat 34) "b")%string] /\
  map vname (g_vars (r_g s)) = [("a" ++ String (ascii_of_nat 92) (String (ascii_of_nat 34) "b"))%string].
Proof.
  set (src := rruns (r_empty jH 5) [RConst (Some 2)]). exists src, (text_of src), (state_of (read_again src)).
  assert (R : rreach jH 5 (careful False) src) by (apply j_reach; vm_compute; reflexivity).
  split; [exact R|]. split; [apply no_lone_variableb_ok; vm_compute; reflexivity|]. split; [apply all_listedb_ok; vm_compute; reflexivity|].
  split. { apply (clearb_ok QcNum_ok). exact (ri_built _ (rreach_inv _ _ _ _ jH_built R)). vm_compute. reflexivity. }
  split; [apply printed_text; vm_compute; reflexivity|]. split; [apply returns_state; vm_compute; reflexivity|]. split; vm_compute; reflexivity.
Qed.
(** Values below half of the last printed decimal are read as zero: the source
    has a distribution and the imported model has not. *)
Theorem C45_decimals_refuted : exists src j s, rreach jH 5 (careful False) src /\ printable src /\ no_lone_variable src /\ all_listed src /\ clear_sharing src /\
  export_json print6 env_id true src = Ok j /\ import_json read6 env_id true 40 j (r_empty jH 5) = Ret tt s /\
  positive (weight (r_h src) (contents src)) (contents src) /\ ~ positive (weight (r_h s) (contents s)) (contents s).
Proof.
  set (src := rruns (r_empty jH 5) [RConst (Some 3)]). set (s := state_of (read_again src)). exists src, (text_of src), s.
  assert (R : rreach jH 5 (careful False) src) by (apply j_reach; vm_compute; reflexivity).
  split; [exact R|]. split; [apply printableb_ok; vm_compute; reflexivity|]. split; [apply no_lone_variableb_ok; vm_compute; reflexivity|]. split; [apply all_listedb_ok; vm_compute; reflexivity|].
  split. { apply (clearb_ok QcNum_ok). exact (ri_built _ (rreach_inv _ _ _ _ jH_built R)). vm_compute. reflexivity. }
  split; [apply printed_text; vm_compute; reflexivity|]. split; [apply returns_state; vm_compute; reflexivity|].
  split; [apply positiveb_ok; vm_compute; reflexivity|].
  assert (NB : positiveb (weight (r_h s) (contents s)) (contents s) = false) by (vm_compute; reflexivity).
  intros (x & (I & Ag) & Pw). assert (X : positiveb (weight (r_h s) (contents s)) (contents s) = true); [|rewrite NB in X; discriminate X].
  unfold positiveb. apply existsb_exists. exists x. split; [exact I|]. rewrite Ag. exact Pw.
Qed.
Notation text_k src := (import_json read6 env_id true 40 (text_of src) (r_empty kH 6)).
(** A variable left without factors by an insertion that failed is not in the
    imported model; when it has an evidence, the import throws. *)
Theorem C45_lone_variable_refuted :
  (exists src j s, rreach kH 6 (careful False) src /\ printable src /\ export_json print6 env_id true src = Ok j /\ import_json read6 env_id true 40 j (r_empty kH 6) = Ret tt s /\
     length (g_vars (r_g src)) = 2 /\ length (g_vars (r_g s)) = 1) /\
  (exists src j s, rreach kH 6 (careful False) src /\ printable src /\ export_json print6 env_id true src = Ok j /\ import_json read6 env_id true 40 j (r_empty kH 6) = Thr s /\
     evidence (r_g src) exE 1).
Proof.
  split.
  - set (src := rruns (r_empty kH 6) [RConst (Some 5); RConst (Some 4)]). exists src, (text_of src), (state_of (text_k src)).
    split; [apply k_reach; vm_compute; reflexivity|]. split; [apply printableb_ok; vm_compute; reflexivity|]. split; [apply printed_text; vm_compute; reflexivity|].
    split; [apply returns_state; vm_compute; reflexivity|]. split; vm_compute; reflexivity.
  - set (src := rruns (r_empty kH 6) [RConst (Some 5); RConst (Some 4); RGraph (OSet exE 1)]). exists src, (text_of src), (state_of (text_k src)).
    split; [apply k_reach; vm_compute; reflexivity|]. split; [apply printableb_ok; vm_compute; reflexivity|]. split; [apply printed_text; vm_compute; reflexivity|].
    split; [apply threw_state; vm_compute; reflexivity|]. exists 1. split; vm_compute; reflexivity.
Qed.
(** A factor whose insertion as sharer failed is in the model, and is not exported. *)
Theorem C45_unlisted_refuted : exists src j s, rreach kH 6 (careful False) src /\ printable src /\ no_lone_variable src /\ clear_sharing src /\
  export_json print6 env_id true src = Ok j /\ import_json read6 env_id true 40 j (r_empty kH 6) = Ret tt s /\
  length (g_all (r_g src)) = 2 /\ length (g_all (r_g s)) = 1.
Proof.
  set (src := rruns (r_empty kH 6) [RTun (Some 0) None; RTun (Some 3) (Some [exE])]). exists src, (text_of src), (state_of (text_k src)).
  assert (R : rreach kH 6 (careful False) src) by (apply k_reach; vm_compute; reflexivity).
  split; [exact R|]. split; [apply printableb_ok; vm_compute; reflexivity|]. split; [apply no_lone_variableb_ok; vm_compute; reflexivity|].
  split. { apply (clearb_ok QcNum_ok). exact (ri_built _ (rreach_inv _ _ _ _ kH_built R)). vm_compute. reflexivity. }
  split; [apply printed_text; vm_compute; reflexivity|]. split; [apply returns_state; vm_compute; reflexivity|]. split; vm_compute; reflexivity.
Qed.
(** Two clusters with factors on the variable A: the factor that shares the weight
    of the second is read in the first. *)
Theorem C45_sharing_refuted : exists src j s, rreach kH 6 (careful False) src /\ printable src /\ no_lone_variable src /\ all_listed src /\
  export_json print6 env_id true src = Ok j /\ import_json read6 env_id true 40 j (r_empty kH 6) = Ret tt s /\
  map (@length nat) (tunable_clusters src) = [2; 2] /\ map (@length nat) (tunable_clusters s) = [3; 1].
Proof.
  set (src := rruns (r_empty kH 6) [RTun (Some 0) None; RTun (Some 2) None; RTun (Some 3) (Some [exA]); RTun (Some 1) (Some [exC; exA])]).
  exists src, (text_of src), (state_of (text_k src)).
  split; [apply k_reach; vm_compute; reflexivity|]. split; [apply printableb_ok; vm_compute; reflexivity|]. split; [apply no_lone_variableb_ok; vm_compute; reflexivity|].
  split; [apply all_listedb_ok; vm_compute; reflexivity|].
  split; [apply printed_text; vm_compute; reflexivity|]. split; [apply returns_state; vm_compute; reflexivity|]. split; vm_compute; reflexivity.
Qed.

Print Assumptions C45_field_partial.
Print Assumptions C45_graph_partial.
Print Assumptions C45_distribution.
Print Assumptions C45_names_refuted.
Print Assumptions C45_quotes_refuted.
Print Assumptions C45_decimals_refuted.
Print Assumptions C45_lone_variable_refuted.
Print Assumptions C45_unlisted_refuted.
Print Assumptions C45_sharing_refuted.
