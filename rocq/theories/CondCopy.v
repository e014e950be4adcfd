(** The construction of a conditional random field from a field (or from another
    conditional random field): what it contains, and when it throws. *)
From Coq Require Import String List Arith Bool Lia Permutation Relations.
From Verif Require Import Res Num Categoric Combs Func FuncProofs GroupProofs FactorProofs FactorApi Special SpecialProofs
  Graph GraphLemmas Clusters Belief Query Gibbs GraphInv EvidInv BeliefInv BigOp Tree Cycle BPStep BPRun GraphSpec Hist P_Graph BeliefSpec Sums Exact BeliefHist Queries
  Rebuild Parts JointSpec Joint SafeSpec Safe Train TrainHist Coherent TrainSpec Gradient TrainInv GradientRun FieldHist Plan CopyProofs CRF CRFHist CRFInv.
Import ListNotations.
Open Scope nat_scope.

Section CondCopy.
  Context {N : num}.
  Notation rst := (rst (N:=N)).
  Implicit Types s src : rst.

  (** {1 The evidences are given by name} *)
  Definition give_named src (e : env) (l : list nat) s : out rst unit :=
    ofold (fun a s =>
             do (v, s) <- lift (node_var (r_g src) a) s ;;
             match g_ev (r_g src) a with
             | None => Undef
             | Some k =>
                 do (w, s) <- lift (find_variable (r_g s) (vname v)) s ;;
                 on_g (fun g => set_evidence (r_h s) e g w k) s
             end) l s.
  Lemma find_same_name s v : In v (g_vars (r_g s)) -> (forall w, In w (g_vars (r_g s)) -> vname w = vname v -> w = v) -> find_variable (r_g s) (vname v) = Ok v.
  Proof.
    intros J U. unfold find_variable. destruct (find _ _) as [w|] eqn:F.
    - apply find_some in F as [Jw Q]. apply String.eqb_eq in Q. f_equal. apply U; auto.
    - exfalso. pose proof (find_none _ _ F v J) as Q. cbv beta in Q. rewrite String.eqb_refl in Q. discriminate.
  Qed.
  Lemma give_named_same src e l : (forall v w, In v (g_vars (r_g src)) -> In w (g_vars (r_g src)) -> vname v = vname w -> v = w) ->
    forall s s', give_evidences src e l s = Ret tt s' -> (forall v, In v (g_vars (r_g s')) <-> In v (g_vars (r_g src))) -> give_named src e l s = Ret tt s'.
  Proof.
    intros U.
    assert (ST : forall l s s', give_evidences src e l s = Ret tt s' -> g_vars (r_g s') = g_vars (r_g s)).
    { clear l. induction l as [|a l IH]; unfold give_evidences; cbn [ofold]; intros s s' Q. injection Q as <-; auto.
      destruct (node_var (r_g src) a) as [v| | | |]; cbn [lift obind] in Q; try discriminate.
      destruct (g_ev (r_g src) a) as [k|]; [|discriminate]. unfold on_g in Q at 1.
      pose proof (set_evidence_stat (r_h s) e v k (r_g s) (r_g s) (same_refl _)) as X.
      destruct (set_evidence (r_h s) e (r_g s) v k) as [[] g|g| | |]; cbn [obind] in Q; try discriminate. apply IH in Q. rewrite Q. apply X. }
    induction l as [|a l IH]; intros s s' Q V. exact Q.
    pose proof (ST _ _ _ Q) as VS. unfold give_evidences, give_named in *. cbn [ofold] in *.
    destruct (node_var (r_g src) a) as [v| | | |] eqn:NV; cbn [lift obind] in *; try discriminate.
    destruct (g_ev (r_g src) a) as [k|]; [|discriminate].
    assert (Jv : In v (g_vars (r_g src))).
    { unfold node_var, vget in NV. destruct (nth_error (g_vars (r_g src)) a) eqn:Z; inversion NV; subst. eapply nth_error_In; eauto. }
    rewrite find_same_name; cbn [lift obind].
    - destruct (on_g _ s) as [[] s1|s1| | |]; cbn [obind] in *; try discriminate. apply IH; auto.
    - rewrite <- VS. apply V. auto.
    - intros w Jw Qw. rewrite <- VS in Jw. apply V in Jw. apply U; auto.
  Qed.

  (** {1 The tuners} *)
  Definition all_seen s (b : btuner) : bool := forallb (fun v => match observed_at (r_g s) v with Some _ => true | None => false end) (f_vars (r_h s (bt_fac b))).
  Lemma replace_case s b : coh True s -> tuner_ok s b ->
    if all_seen s b then replace_if_needed s b = Throw else exists b', replace_if_needed s b = Ok b'.
  Proof.
    intros C [L T]. assert (ND : NoDup (map vkey (g_vars (r_g s)))) by (apply C).
    assert (FD : incl (f_vars (r_h s (bt_fac b))) (g_vars (r_g s)) -> exists fd, make_finder (r_h s (bt_fac b)) (g_vars (r_g s)) = Ok fd).
    { intros IC. destruct (make_finder_ok (r_h s (bt_fac b)) (g_vars (r_g s))) as (fd & Q & _); eauto. apply NoDup_incl_length; auto.
      destruct (built_solid _ (ri_built _ (ch_r _ _ C) (bt_fac b))) as ((_ & [D _]) & _). apply NoDup_map_inv in D. exact D. }
    unfold all_seen, replace_if_needed. destruct (bt_kind b) as [a|a c|] eqn:KB; [| |destruct T].
    - destruct T as (v & FV & V & IX). rewrite FV. cbn [forallb]. destruct (observed_at _ _); simpl; eauto.
    - destruct T as (v & w & FV & V & W & IX). destruct FD as (fd & Qf).
      { rewrite FV. intros x [<-|[<-|[]]]; eapply nth_error_In; eauto. }
      rewrite FV. cbn [forallb]. destruct (observed_at_ok s a v ND V) as [O F]. destruct (observed_at_ok s c w ND W) as [O' F']. rewrite O, O', F, F'.
      destruct (g_ev (r_g s) a), (g_ev (r_g s) c); cbn [andb]; eauto; rewrite Qf; cbn [rbind]; [rewrite (node_var_ok _ _ _ V)|rewrite (node_var_ok _ _ _ W)]; simpl; eauto.
  Qed.
  Lemma rmap_case {A B} (f : A -> res B) (p : A -> bool) l : (forall a, In a l -> if p a then f a = Throw else exists b, f a = Ok b) ->
    if existsb p l then rmap f l = Throw else exists l', rmap f l = Ok l'.
  Proof.
    induction l as [|a l IH]; intros Q; simpl. eauto. pose proof (Q a (or_introl eq_refl)) as Qa.
    destruct (p a); simpl. { rewrite Qa. reflexivity. } destruct Qa as (b & ->). simpl.
    specialize (IH (fun x J => Q x (or_intror J))). destruct (existsb p l). rewrite IH; auto. destruct IH as (l' & ->). simpl. eauto.
  Qed.
  Lemma replaces_case s : coh True s -> tinv s ->
    if existsb (fun t => existsb (all_seen s) (bases t)) (r_tuners s) then rmap (replace_tuner s) (r_tuners s) = Throw
    else exists ts, rmap (replace_tuner s) (r_tuners s) = Ok ts.
  Proof.
    intros C T. apply rmap_case. intros t Jt.
    assert (K : forall b, In b (bases t) -> if all_seen s b then replace_if_needed s b = Throw else exists b', replace_if_needed s b = Ok b').
    { intros b Jb. apply replace_case; auto. apply (T t); auto. }
    destruct t as [b|l]; cbn [bases replace_tuner] in *.
    - cbn [existsb]. rewrite orb_false_r. specialize (K b (or_introl eq_refl)). destruct (all_seen s b). rewrite K; auto. destruct K as (b' & ->). simpl. eauto.
    - pose proof (rmap_case _ _ l K) as Q. destruct (existsb _ l). rewrite Q; auto. destruct Q as (l' & ->). simpl. eauto.
  Qed.

  (** {1 The construction} *)
  Section Make.
    Variable P0 : Prop.
    Variable src : rst.
    Hypothesis CS : coh P0 src.
    Variable copy : bool.
    Hypothesis U : forall v w, In v (g_vars (r_g src)) -> In w (g_vars (r_g src)) -> vname v = vname w -> v = w.
    Hypothesis NO : no_orphans src.
    Hypothesis AL : forall f, In f (g_all (r_g src)) -> In f (r_const src ++ concat (tunable_clusters src)).
    Hypothesis UA : unambiguous src.

    Theorem cond_make e : env_ok e -> keys (gsize (r_g src)) (g_ev (r_g src)) <> [] ->
      exists s0 done, rf_absorb e src copy (r_empty (r_h src) (r_top src)) = Ret tt s0 /\ copied src copy done s0 /\ clustered src copy s0 (tunable_clusters src) /\
        crf_ctor e src copy =
          match rmap (replace_tuner s0) (r_tuners s0) with
          | Ok ts => Ret (mkC (set_tuners s0 ts) (find_positions (g_vars (r_g src)) (observed_order e (r_g src)))) (set_tuners s0 ts)
          | Throw => Thr s0 | UB => Undef | Nan => NotNum | Loop => NoStop
          end.
    Proof.
      intros E K. destruct (field_copy P0 src CS copy e E NO AL UA) as (s0 & done & Q & CY & CL). exists s0, done. splits; auto.
      unfold crf_ctor, crf_absorb. destruct (keys (gsize (r_g src)) (g_ev (r_g src))) as [|k0 ks] eqn:Ks; [congruence|].
      unfold rf_absorb in Q. destruct (absorb_const _ copy _) as [[] s1|s1| | |]; cbn [obind] in *; try discriminate.
      destruct (absorb_clusters copy _ s1) as [[] s2|s2| | |]; cbn [obind] in *; try discriminate.
      rewrite Ks in Q. unfold evidence_order. rewrite Ks.
      pose proof (give_named_same src e (e_ord e (gsize (r_g src)) (k0 :: ks)) U s2 s0 Q (cy_vars _ _ _ _ CY)) as Q2. unfold give_named in Q2. rewrite Q2. cbn [obind].
      destruct (rmap (replace_tuner s0) (r_tuners s0)); reflexivity.
    Qed.
  End Make.
End CondCopy.
