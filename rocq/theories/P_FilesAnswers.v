(** Properties C45 and C53, seen by the user who asks queries: the model read from the
    file of a model answers, to the queries with the names of the variables, what that
    model answers. *)
From Coq Require Import String List Arith Bool Lia Permutation Relations Qcanon Field.
From Verif Require Import Res Num Categoric Combs Func FuncProofs GroupProofs FactorProofs FactorApi Special SpecialProofs
  Graph GraphLemmas Clusters Belief Query GraphInv EvidInv BeliefInv BigOp GraphSpec Hist P_Graph BeliefSpec JointSpec Sums BeliefHist
  Rebuild Train TrainHist Coherent TrainInv P_Categoric P_Factor Demo BeliefDemo TrainDemo P_Train P_Gradient P_GradientDemo P_Joint Separate FieldHist P_Field Plan CopyProofs P_Copy
  IO TextSpec TextProofs Json JsonRead JsonProofs P_Json Xml XmlProofs P_Xml.
Import ListNotations.
Open Scope nat_scope.

(** {1 Models that differ in the names given to the variables} *)
Section Renamed.
  Context {N : num} (OK : num_ok N).
  Variable rho : var -> var.
  Variables (F F' : nat -> func N) (A A' : spec) (l : list nat).
  Hypothesis ND : NoDup (sp_vars A).
  Hypothesis ND' : NoDup (sp_vars A').
  Hypothesis FV : forall f, In f (sp_facs A) -> incl (f_vars (F f)) (sp_vars A).
  Hypothesis FV' : forall f, In f (sp_facs A') -> incl (f_vars (F' f)) (sp_vars A').
  Hypothesis RS : forall v, In v (sp_vars A) -> vsize (rho v) = vsize v.
  Hypothesis RI : forall v w, In v (sp_vars A) -> In w (sp_vars A) -> rho v = rho w -> v = w.
  Hypothesis PV : Permutation (map rho (sp_vars A)) (sp_vars A').
  Hypothesis EV : forall v, In v (sp_vars A) -> sp_evidence A' (rho v) = sp_evidence A v.
  Hypothesis PL : Permutation (sp_facs A) l.
  Hypothesis TW : Forall2 (fun f k => f_vars (F' k) = map rho (f_vars (F f)) /\ forall c, valid_comb (fsizes (F f)) c -> fval (F' k) c = fval (F f) c) l (sp_facs A').

  Lemma rn_in v : In v (sp_vars A) -> In (rho v) (sp_vars A').
  Proof. intros J. eapply Permutation_in; [exact PV|]. apply in_map; auto. Qed.
  Lemma rn_from u : In u (sp_vars A') -> exists v, In v (sp_vars A) /\ u = rho v.
  Proof. intros J. apply (Permutation_in u (Permutation_sym PV)) in J. apply in_map_iff in J as (v & <- & J). exists v; auto. Qed.
  Lemma rn_hidden v : In v (sp_vars A) -> (hidden A' (rho v) <-> hidden A v).
  Proof. intros J. unfold hidden. rewrite EV by auto. split; intros [_ Q]; split; auto. apply rn_in; auto. Qed.
  Lemma rn_fac k : In k (sp_facs A') -> exists f, In f (sp_facs A) /\ f_vars (F' k) = map rho (f_vars (F f)) /\
    forall c, valid_comb (fsizes (F f)) c -> fval (F' k) c = fval (F f) c.
  Proof.
    intros J. assert (X : exists f, In f l /\ f_vars (F' k) = map rho (f_vars (F f)) /\ forall c, valid_comb (fsizes (F f)) c -> fval (F' k) c = fval (F f) c).
    { clear PL FV'. revert J. induction TW as [|f k0 l0 ks Q T IH]; intros J; [destruct J|destruct J as [<-|J]].
      - exists f. split; [left; auto|exact Q].
      - destruct (IH T J) as (g & Jg & Qg). exists g. split; [right; auto|exact Qg]. }
    destruct X as (f & Jf & Q). exists f. split; [eapply Permutation_in; [symmetry; exact PL|exact Jf]|exact Q].
  Qed.
  Lemma rn_pair f a b : In f (sp_facs A) -> In a (sp_vars A) -> In b (sp_vars A) -> map rho (f_vars (F f)) = [rho a; rho b] -> f_vars (F f) = [a; b].
  Proof.
    intros Jf Ja Jb E. pose proof (FV f Jf) as I. destruct (f_vars (F f)) as [|x [|y [|z r]]]; try discriminate E. injection E as E1 E2.
    apply RI in E1; auto; [|apply I; left; auto]. apply RI in E2; auto; [|apply I; right; left; auto]. subst; auto.
  Qed.
  Lemma rn_joins k v w : In v (sp_vars A) -> In w (sp_vars A) -> joins F' A' k (rho v) (rho w) ->
    exists f, joins F A f v w /\ forall c, valid_comb (fsizes (F f)) c -> fval (F' k) c = fval (F f) c.
  Proof.
    intros Jv Jw [Jk X]. destruct (rn_fac k Jk) as (f & Jf & E & V). exists f. split; [|exact V]. split; auto. unfold fv in *. rewrite E in X.
    destruct X as [X|X]; [left|right]; apply rn_pair; auto.
  Qed.
  Lemma rn_symmetric : symmetric F A -> symmetric F' A'.
  Proof.
    intros SY k v' w' J Hv Hw. destruct (rn_from v' (proj1 Hv)) as (v & Jv & ->). destruct (rn_from w' (proj1 Hw)) as (w & Jw & ->).
    apply rn_hidden in Hv; auto. apply rn_hidden in Hw; auto. apply rn_joins in J as (f & Jf & V); auto.
    destruct (SY f v w Jf Hv Hw) as [Es X]. rewrite !RS by auto. split; auto. intros i j Li Lj.
    assert (VC : forall a b, a < vsize v -> b < vsize v -> valid_comb (fsizes (F f)) [a; b]).
    { intros a b La Lb. unfold fsizes, sizes_of. change (g_soup (f_group (F f))) with (fv F f). destruct Jf as [_ [->| ->]]; simpl; repeat constructor; lia. }
    rewrite !V by auto. auto.
  Qed.
  Lemma rn_edge v w : In v (sp_vars A) -> In w (sp_vars A) -> hidden_edge F' A' (rho v) (rho w) -> hidden_edge F A v w.
  Proof.
    intros Jv Jw (Hv & Hw & k & J). split; [apply rn_hidden; auto|split; [apply rn_hidden; auto|]].
    apply rn_joins in J as (f & J & _); auto. exists f. exact J.
  Qed.
  Lemma rn_linked v u : In v (sp_vars A) -> hidden_linked F' A' (rho v) u -> exists w, In w (sp_vars A) /\ u = rho w /\ hidden_linked F A v w.
  Proof.
    intros J L. apply clos_rt_rtn1 in L. induction L as [|y z Q _ IH].
    - exists v. split; auto. split; auto. apply rt_refl.
    - destruct IH as (w & Jw & -> & L). destruct (rn_from z (proj1 (proj1 (proj2 Q)))) as (x & Jx & ->). exists x. split; auto. split; auto.
      eapply rt_trans; [exact L|]. apply rt_step. apply rn_edge; auto.
  Qed.
  Lemma rn_tree v : In v (sp_vars A) -> tree_around F A v -> tree_around F' A' (rho v).
  Proof.
    intros J T (c' & (R1 & R2 & R3) & L).
    assert (X : exists c, c' = map rho c /\ forall w, In w c -> In w (sp_vars A) /\ hidden_linked F A v w).
    { clear R1 R2 R3. induction c' as [|u c' IH]. exists []. split; auto. intros w [].
      destruct IH as (c & -> & Q). { intros w Jw. apply L. right; auto. }
      destruct (rn_linked v u J (L u (or_introl eq_refl))) as (w & Jw & -> & Lw). exists (w :: c). split; auto.
      intros x [<-|Jx]; auto. }
    destruct X as (c & -> & Q). apply T. exists c. split.
    - rewrite map_length in *. split; auto. split. { eapply NoDup_map_inv; eauto. }
      intros i x y Ex Ey. apply rn_edge. apply Q. eapply nth_error_In; eauto. apply Q. eapply nth_error_In; eauto.
      apply (R3 i). rewrite nth_error_map, Ex. auto. rewrite nth_error_map, Ey. auto.
    - intros w Jw. apply Q; auto.
  Qed.
  Lemma rn_floor : above_floor F A -> above_floor F' A'.
  Proof.
    intros B k v' w' Jk X Hv Hw i j Li Lj. destruct (rn_from v' (proj1 Hv)) as (v & Jv & ->). destruct (rn_from w' (proj1 Hw)) as (w & Jw & ->).
    apply rn_hidden in Hv; auto. apply rn_hidden in Hw; auto. rewrite RS in Li, Lj by auto. destruct (rn_fac k Jk) as (f & Jf & E & V).
    assert (X' : fv F f = [v; w]). { apply rn_pair; auto. unfold fv in X. rewrite <- E. exact X. }
    rewrite V. eapply B; eauto. unfold fsizes, sizes_of. change (g_soup (f_group (F f))) with (fv F f). rewrite X'. simpl. repeat constructor; auto.
  Qed.

  (** an assignment of one, and the assignment of the other *)
  Definition corresponds (x x' : asg) : Prop := forall v, In v (sp_vars A) -> val x' (rho v) = val x v.
  Lemma co_weight x x' : corresponds x x' -> (forall v, In v (sp_vars A) -> val x v < vsize v) -> weight F' A' x' = weight F A x.
  Proof.
    intros CO RX. unfold weight. rewrite (prodL_perm OK _ _ _ PL).
    assert (I : forall f, In f l -> In f (sp_facs A)) by (intros f Q; eapply Permutation_in; [symmetry; exact PL|exact Q]).
    clear PL FV'. induction TW as [|f k l0 ks [E V] T IH]; simpl; auto. rewrite IH by (auto; intros; apply I; simpl; auto). f_equal. rewrite E, map_map.
    assert (If : In f (sp_facs A)) by (apply I; simpl; auto).
    assert (EQ : map (fun v => val x' (rho v)) (f_vars (F f)) = map (val x) (f_vars (F f))).
    { apply map_ext_in. intros v Jv. apply CO. apply (FV f If); auto. }
    rewrite EQ. apply V. apply (in_range F A FV f x); auto.
  Qed.
  Lemma co_agrees x x' : corresponds x x' -> agrees A' x' = agrees A x.
  Proof.
    intros CO. unfold agrees. apply eq_true_iff_eq. rewrite !forallb_forall. split; intros Q v Jv.
    - rewrite <- EV, <- (CO v) by auto. apply Q. apply rn_in; auto.
    - destruct (rn_from v Jv) as (w & Jw & ->). rewrite EV, CO by auto. auto.
  Qed.
  Lemma co_there x : In x (all_asg (sp_vars A)) -> exists x', In x' (all_asg (sp_vars A')) /\ corresponds x x'.
  Proof.
    intros J. assert (VR : forall v, In v (sp_vars A) -> val (rename rho x) (rho v) = val x v).
    { intros v Jv. apply val_rename. intros w Jw. apply RI; auto. rewrite <- (asg_domain _ _ J). auto. }
    exists (canon (sp_vars A') (rename rho x)). split.
    - apply canon_In. intros u Ju. destruct (rn_from u Ju) as (v & Jv & ->). rewrite VR, RS by auto. apply (asg_val_range (sp_vars A)); auto.
    - intros v Jv. rewrite canon_val by (apply rn_in; auto). auto.
  Qed.
  Lemma val_made (g : var -> nat) vs v : In v vs -> val (map (fun w => (w, g w)) vs) v = g v.
  Proof.
    induction vs as [|w vs IH]; intros J; [destruct J|]. cbn [map val fst snd]. destruct (same_instance v w) eqn:S1.
    - apply same_instance_spec in S1. subst; auto.
    - destruct J as [<-|J]; auto. exfalso. apply same_instance_false in S1. apply S1; auto.
  Qed.
  Lemma co_back x' : In x' (all_asg (sp_vars A')) -> exists x, In x (all_asg (sp_vars A)) /\ corresponds x x'.
  Proof.
    intros J. set (y := map (fun w => (w, val x' (rho w))) (sp_vars A)).
    assert (VY : forall v, In v (sp_vars A) -> val y v = val x' (rho v)) by (intros v Jv; apply (val_made (fun w => val x' (rho w))); auto).
    exists (canon (sp_vars A) y). split.
    - apply canon_In. intros v Jv. rewrite VY by auto. rewrite <- RS by auto. apply (asg_val_range (sp_vars A')); auto. apply rn_in; auto.
    - intros v Jv. rewrite canon_val, VY by auto. auto.
  Qed.
  Lemma rn_positive : positive (weight F A) A -> positive (weight F' A') A'.
  Proof.
    intros (x & (I & Ag) & Pw). destruct (co_there x I) as (x' & I' & CO). exists x'. split; [split; auto|].
    - rewrite (co_agrees x x' CO). auto.
    - rewrite (co_weight x x' CO); auto. intros v Jv; apply (asg_val_range (sp_vars A)); auto.
  Qed.
  Lemma rn_best x x' : corresponds x x' -> In x (all_asg (sp_vars A)) -> In x' (all_asg (sp_vars A')) ->
    (most_probable (weight F' A') A' x' <-> most_probable (weight F A) A x).
  Proof.
    intros CO I I'. assert (RX : forall y, In y (all_asg (sp_vars A)) -> forall v, In v (sp_vars A) -> val y v < vsize v) by (intros y J v Jv; apply (asg_val_range (sp_vars A)); auto).
    split; intros [[_ Ag] B]; (split; [split; auto|]).
    - rewrite <- (co_agrees x x' CO). auto.
    - intros y [Iy Ay]. destruct (co_there y Iy) as (y' & Iy' & COy). rewrite <- (co_weight x x' CO), <- (co_weight y y' COy) by auto.
      apply B. split; auto. rewrite (co_agrees y y' COy). auto.
    - rewrite (co_agrees x x' CO). auto.
    - intros y' [Iy' Ay]. destruct (co_back y' Iy') as (y & Iy & COy). rewrite (co_weight x x' CO), (co_weight y y' COy) by auto.
      apply B. split; auto. rewrite <- (co_agrees y y' COy). auto.
  Qed.
  Lemma rn_joins' f v w : joins F A f v w -> exists k, joins F' A' k (rho v) (rho w).
  Proof.
    intros [Jf X]. assert (Y : exists k, In k (sp_facs A') /\ f_vars (F' k) = map rho (f_vars (F f))).
    { apply (Permutation_in f PL) in Jf. clear X PL FV'. revert Jf. induction TW as [|f0 k0 l0 ks Q T IH]; intros J; [destruct J|destruct J as [<-|J]].
      - exists k0. split; [left; auto|apply Q].
      - destruct (IH T J) as (k & Jk & Qk). exists k. split; [right; auto|exact Qk]. }
    destruct Y as (k & Jk & E). exists k. split; auto. unfold fv in *. rewrite E. destruct X as [->| ->]; auto.
  Qed.
  Lemma rn_edge' v w : hidden_edge F A v w -> hidden_edge F' A' (rho v) (rho w).
  Proof.
    intros (Hv & Hw & f & J). split; [apply rn_hidden; auto; apply Hv|split; [apply rn_hidden; auto; apply Hw|]].
    apply rn_joins' in J. exact J.
  Qed.
  Lemma rn_inside vs : incl vs (sp_vars A) -> joined_inside F A vs -> joined_inside F' A' (map rho vs).
  Proof.
    intros I JI v' w' Jv Jw L. apply in_map_iff in Jv as (v & <- & Jv). apply in_map_iff in Jw as (w & <- & Jw).
    destruct (rn_linked v (rho w) (I v Jv) L) as (w0 & Jw0 & E & L'). apply RI in E; auto. subst w0.
    pose proof (JI v w Jv Jw L') as P. clear - P FV FV' RI PV EV PL TW. induction P as [a b (Q & Ja & Jb)|a|a b c _ I1 _ I2].
    - apply rt_step. split; [apply rn_edge'; auto|split; apply in_map; auto].
    - apply rt_refl.
    - eapply rt_trans; eauto.
  Qed.
  Lemma rn_observed vs : incl vs (sp_vars A) -> one_observed A vs -> one_observed A' (map rho vs).
  Proof.
    intros I O v' w' Jv Jw Ov Ow. apply in_map_iff in Jv as (v & <- & Jv). apply in_map_iff in Jw as (w & <- & Jw).
    unfold is_obs in Ov, Ow. rewrite EV in Ov, Ow by auto. f_equal. apply O; auto.
  Qed.
  Lemma rn_group vs : incl vs (sp_vars A) -> (forall v, In v vs -> hidden A v -> tree_around F A v) ->
    forall v, In v (map rho vs) -> hidden A' v -> tree_around F' A' v.
  Proof. intros I T v J Hv. apply in_map_iff in J as (w & <- & J). apply rn_tree; auto. apply T; auto. apply rn_hidden; auto. Qed.
End Renamed.

(** {1 The answers of the model that is read} *)
Section Answers.
  Context {N : num} (OK : num_ok N).
  Notation rst := (rst (N:=N)).
  Implicit Types s src : rst.
  Add Field files_field : (ok_field N OK).

  (** for a query about one variable, given by its name, [src] and [s] return the same *)
  Definition same_marginals src s (v : var) : Prop := forall e e' n n', env_ok e -> env_ok e' -> 1 <= n -> 1 <= n' ->
    exists l g g', get_marginal_name (r_h src) e (vname v) n (r_g src) = Ret l g /\ get_marginal_name (r_h s) e' (vname v) n' (r_g s) = Ret l g'.
  Definition same_map src s (v : var) : Prop := forall e e' n n', env_ok e -> env_ok e' -> 1 <= n -> 1 <= n' ->
    exists j g g', get_map_name (r_h src) e (vname v) n (r_g src) = Ret j g /\ get_map_name (r_h s) e' (vname v) n' (r_g s) = Ret j g'.

  (** the same for the joint distribution of some variables, whose values are not normalised *)
  Definition same_joint src s (vs : list var) : Prop := forall e e' n n', env_ok e -> env_ok e' -> 1 <= n -> 1 <= n' ->
    exists f f' g g', get_joint_names (r_h src) e (map vname vs) n (r_g src) = Ret f g /\ get_joint_names (r_h s) e' (map vname vs) n' (r_g s) = Ret f' g' /\
      map vname (f_vars f) = map vname vs /\ map vname (f_vars f') = map vname vs /\
      exists c, (n0 < c)%num /\ forall l, valid_comb (map vsize vs) l -> fval f' l = (c * fval f l)%num.
  (** variables of which the joint distribution is asked: distinct, on trees, at most one observed *)
  Definition asked (F : nat -> func N) (A : spec) (vs : list var) : Prop :=
    vs <> [] /\ NoDup vs /\ incl vs (sp_vars A) /\ (forall v, In v vs -> hidden A v -> tree_around F A v) /\ joined_inside F A vs /\ one_observed A vs.

  Lemma named_found (s : rst) v : NoDup (map vname (g_vars (r_g s))) -> In v (g_vars (r_g s)) -> find_variable (r_g s) (vname v) = Ok v.
  Proof.
    intros ND J. unfold find_variable. destruct (find _ (g_vars (r_g s))) as [w|] eqn:Q.
    - apply find_some in Q as [Jw E]. apply String.eqb_eq in E. f_equal. apply (name_inj _ ND); auto.
    - exfalso. apply (find_none _ _ Q) in J. rewrite String.eqb_refl in J. discriminate J.
  Qed.

  (** the queries of one state return what the distribution of the model says *)
  Definition answers s : Prop := symmetric (r_h s) (contents s) -> positive (weight (r_h s) (contents s)) (contents s) ->
    (forall e n v, env_ok e -> 1 <= n -> hidden (contents s) v -> tree_around (r_h s) (contents s) v ->
      exists g, get_marginal (r_h s) e v n (r_g s) = Ret (map (marginal (weight (r_h s) (contents s)) (contents s) v) (seq 0 (vsize v))) g) /\
    (forall e n v, env_ok e -> 1 <= n -> above_floor (r_h s) (contents s) -> hidden (contents s) v -> tree_around (r_h s) (contents s) v ->
      exists j g, get_map (r_h s) e v n (r_g s) = Ret j g /\
        (exists x, most_probable (weight (r_h s) (contents s)) (contents s) x /\ val x v = j) /\
        (forall x, most_probable (weight (r_h s) (contents s)) (contents s) x -> j <= val x v)) /\
    (forall e n g, env_ok e -> 1 <= n -> P_Joint.group_of (r_h s) (contents s) g -> joined_inside (r_h s) (contents s) (g_soup g) -> one_observed (contents s) (g_soup g) ->
      exists f g', get_joint (r_h s) e g n (r_g s) = Ret f g' /\ f_vars f = g_soup g /\
        exists c, (n0 < c)%num /\ forall l, valid_comb (map vsize (g_soup g)) l -> fval f l = (c * mass (weight (r_h s) (contents s)) (contents s) (takes_all (g_soup g) l))%num).
  Lemma field_answers h top s : (forall f, built (h f)) -> rreach h top alert s -> answers s.
  Proof.
    intros Hb R SY PO. split; [|split].
    - intros e n v E L Hv T. exact (C49_marginals_partial OK h top s e n v Hb R E L SY PO Hv T).
    - intros e n v E L AF Hv T. exact (C49_map_partial OK h top s e n v Hb R E L SY AF PO Hv T).
    - intros e n g E L GO JI OO. exact (C49_joint_partial OK h top s e n g Hb R E L SY PO GO JI OO).
  Qed.
  Lemma field_coh h top s : (forall f, built (h f)) -> rreach h top alert s -> coh False s.
  Proof. intros Hb R. exact (rreach_coh False h top s Hb (alert_careful _ _ _ R)). Qed.

  Section Read.
    Variables (rnd : N -> N) (src s : rst) (rho : var -> var).
    Hypothesis rd_coh : coh False src.
    Hypothesis rd_coh' : coh False s.
    Hypothesis R : answers src.
    Hypothesis R' : answers s.
    Hypothesis PR : printable src.
    Hypothesis RC : read_content rnd rho src s.
    Hypothesis EX : exact_values rnd src.
    Hypothesis SY : symmetric (r_h src) (contents src).
    Hypothesis PO : positive (weight (r_h src) (contents src)) (contents src).

    Lemma rd_size v : In v (sp_vars (contents src)) -> vsize (rho v) = vsize v.
    Proof. intros J. apply (proj1 RC v J). Qed.
    Lemma rd_name v : In v (sp_vars (contents src)) -> vname (rho v) = vname v.
    Proof. intros J. apply (proj1 RC v J). Qed.
    Lemma rd_inj v w : In v (sp_vars (contents src)) -> In w (sp_vars (contents src)) -> rho v = rho w -> v = w.
    Proof. intros Jv Jw E. apply (name_inj _ (proj1 PR)); auto. rewrite <- (rd_name v Jv), <- (rd_name w Jw). congruence. Qed.
    Lemma rd_names : NoDup (map vname (g_vars (r_g s))).
    Proof.
      destruct RC as (RN & PV & _). eapply Permutation_NoDup; [apply Permutation_map; exact PV|]. rewrite map_map.
      rewrite (map_ext_in _ vname); [apply PR|]. intros v J. apply (RN v J).
    Qed.
    Lemma rd_parts : NoDup (sp_vars (contents src)) /\ NoDup (sp_vars (contents s)) /\
      (forall f, In f (sp_facs (contents src)) -> incl (f_vars (r_h src f)) (sp_vars (contents src))) /\
      (forall f, In f (sp_facs (contents s)) -> incl (f_vars (r_h s f)) (sp_vars (contents s))) /\
      Permutation (map rho (sp_vars (contents src))) (sp_vars (contents s)) /\
      (forall v, In v (sp_vars (contents src)) -> sp_evidence (contents s) (rho v) = sp_evidence (contents src) v) /\
      exists l, Permutation (sp_facs (contents src)) l /\
        Forall2 (fun f k => f_vars (r_h s k) = map rho (f_vars (r_h src f)) /\ forall c, valid_comb (fsizes (r_h src f)) c -> fval (r_h s k) c = fval (r_h src f) c) l (sp_facs (contents s)).
    Proof.
      pose proof rd_coh as CS. pose proof rd_coh' as C. pose proof RC as (RN & PV & EV & l & PL & TW).
      split. { eapply NoDup_map_inv; apply (co_vars _ _ _ (proj1 (ch_inv _ _ CS))). }
      split. { eapply NoDup_map_inv; apply (co_vars _ _ _ (proj1 (ch_inv _ _ C))). }
      split. { intros f J v Jv. eapply (CopyProofs.src_vars_in False src CS f v); auto. }
      split. { intros f J v Jv. eapply (CopyProofs.src_vars_in False s C f v); auto. }
      split; [exact PV|]. split.
      { intros v J. change (In v (g_vars (r_g src))) in J. assert (J' : In (rho v) (g_vars (r_g s))) by (eapply Permutation_in; [exact PV|]; apply in_map; auto).
        pose proof (fun k => ev_evidence False src v k CS J) as Q. pose proof (fun k => ev_evidence False s (rho v) k C J') as Q'.
        destruct (sp_evidence (contents src) v) as [k|] eqn:E.
        - apply Q', EV, Q; auto.
        - destruct (sp_evidence (contents s) (rho v)) as [k|] eqn:E'; auto. assert (W : None = Some k); [|discriminate W]. apply Q, EV, Q'; auto. }
      exists l. split; [exact PL|]. eapply F2_mono; [|exact TW]. intros f k Jf _ [E V]. split; auto. intros c VC. rewrite V by auto. unfold rounded, fval, transform.
      assert (Jf' : In f (g_all (r_g src))) by (eapply Permutation_in; [symmetry; exact PL|exact Jf]). destruct (EX f Jf') as [EW EI]. rewrite EI by auto.
      destruct (f_exp (r_h src f)) as [w|]; auto. rewrite (EW w); auto.
    Qed.

    Lemma rd_symmetric : symmetric (r_h s) (contents s).
    Proof.
      destruct rd_parts as (ND & ND' & FV & FV' & PV & EV & l & PL & TW).
      eapply (rn_symmetric rho (r_h src) (r_h s) (contents src) (contents s) l); eauto using rd_size, rd_inj.
    Qed.
    Lemma rd_positive : positive (weight (r_h s) (contents s)) (contents s).
    Proof.
      destruct rd_parts as (ND & ND' & FV & FV' & PV & EV & l & PL & TW).
      eapply (rn_positive OK rho (r_h src) (r_h s) (contents src) (contents s) l); eauto using rd_size, rd_inj.
    Qed.
    Lemma rd_marginals v : hidden (contents src) v -> tree_around (r_h src) (contents src) v -> same_marginals src s v.
    Proof.
      intros Hv T e e' n n' E E' Ln Ln'. destruct rd_parts as (ND & ND' & FV & FV' & PV & EV & l & PL & TW).
      pose proof (proj1 Hv) as Jv.
      destruct (proj1 (R SY PO) e n v E Ln Hv T) as (g & Q).
      destruct (proj1 (R' rd_symmetric rd_positive) e' n' (rho v) E' Ln') as (g' & Q').
      - apply (rn_hidden rho (contents src) (contents s)); auto.
      - eapply (rn_tree rho (r_h src) (r_h s) (contents src) (contents s) l); eauto using rd_size, rd_inj.
      - exists (map (marginal (weight (r_h src) (contents src)) (contents src) v) (seq 0 (vsize v))), g, g'. unfold get_marginal_name.
        rewrite (named_found src v (proj1 PR) Jv). rewrite <- (rd_name v Jv).
        rewrite (named_found s (rho v) rd_names) by (exact (rn_in rho (contents src) (contents s) PV v Jv)).
        split; [exact Q|]. etransitivity; [exact Q'|]. rewrite (rd_size v Jv). f_equal. apply map_ext. intros j.
        apply (read_distribution OK rnd src s rho rd_coh rd_coh' PR RC EX); auto.
    Qed.
    Lemma rd_map v : above_floor (r_h src) (contents src) -> hidden (contents src) v -> tree_around (r_h src) (contents src) v -> same_map src s v.
    Proof.
      intros AF Hv T e e' n n' E E' Ln Ln'. destruct rd_parts as (ND & ND' & FV & FV' & PV & EV & l & PL & TW).
      pose proof (proj1 Hv) as Jv.
      destruct (proj1 (proj2 (R SY PO)) e n v E Ln AF Hv T) as (j & g & Q & (x & Mx & Vx) & Lx).
      destruct (proj1 (proj2 (R' rd_symmetric rd_positive)) e' n' (rho v) E' Ln') as (j' & g' & Q' & (x' & Mx' & Vx') & Lx').
      - eapply (rn_floor rho (r_h src) (r_h s) (contents src) (contents s) l); eauto using rd_size, rd_inj.
      - apply (rn_hidden rho (contents src) (contents s)); auto.
      - eapply (rn_tree rho (r_h src) (r_h s) (contents src) (contents s) l); eauto using rd_size, rd_inj.
      - assert (EJ : j' = j).
        { pose proof (proj1 (proj1 Mx)) as Ix. pose proof (proj1 (proj1 Mx')) as Ix'.
          destruct (co_there rho (contents src) (contents s) ND rd_size rd_inj PV x Ix) as (y' & Iy' & CO).
          destruct (co_back rho (contents src) (contents s) ND' rd_size PV x' Ix') as (y & Iy & CO').
          assert (L1 : j' <= j). { rewrite <- Vx, <- (CO v Jv). apply Lx'. eapply (rn_best OK rho (r_h src) (r_h s) (contents src) (contents s) l); eauto using rd_size, rd_inj. }
          assert (L2 : j <= j'). { rewrite <- Vx', (CO' v Jv). apply Lx. eapply (rn_best OK rho (r_h src) (r_h s) (contents src) (contents s) l); eauto using rd_size, rd_inj. }
          lia. }
        exists j, g, g'. unfold get_map_name. rewrite (named_found src v (proj1 PR) Jv). rewrite <- (rd_name v Jv).
        rewrite (named_found s (rho v) rd_names) by (exact (rn_in rho (contents src) (contents s) PV v Jv)).
        split; [exact Q|]. rewrite <- EJ at 1. exact Q'.
    Qed.
    Lemma names_found (t : rst) us : NoDup (map vname (g_vars (r_g t))) -> incl us (g_vars (r_g t)) -> rmap (find_variable (r_g t)) (map vname us) = Ok us.
    Proof.
      intros ND. induction us as [|u us IH]; intros I; auto. cbn [map rmap]. rewrite (named_found t u ND) by (apply I; left; auto). cbn [rbind].
      rewrite IH by (intros x J; apply I; right; auto). reflexivity.
    Qed.
    Lemma group_made (t : rst) us : NoDup (map vname (g_vars (r_g t))) -> incl us (g_vars (r_g t)) -> us <> [] -> NoDup us ->
      group_ctor us = Ok (mkGroup us us) /\ wf_group (mkGroup us us).
    Proof.
      intros ND I NE NU. assert (NK : NoDup (map vkey us)).
      { clear NE. induction NU as [|u us NI NU IH]; cbn [map]; constructor.
        - intros J. apply in_map_iff in J as (w & E & Jw). apply NI. replace u with w; auto. apply (name_inj _ ND).
          apply I; right; auto. apply I; left; auto. injection E; auto.
        - apply IH. intros x J; apply I; right; auto. }
      split. apply group_ctor_ok; auto. split; auto.
    Qed.
    Lemma rd_joint vs : asked (r_h src) (contents src) vs -> same_joint src s vs.
    Proof.
      intros (NE & NV & I & T & JI & OO) e e' n n' E E' Ln Ln'. destruct rd_parts as (ND & ND' & FV & FV' & PV & EV & l & PL & TW).
      assert (I' : incl (map rho vs) (sp_vars (contents s))).
      { intros u J. apply in_map_iff in J as (v & <- & J). apply (rn_in rho (contents src) (contents s) PV); auto. }
      assert (EN : map vname vs = map vname (map rho vs)). { rewrite map_map. apply map_ext_in. intros v J. symmetry. apply rd_name; auto. }
      assert (ES : map vsize (map rho vs) = map vsize vs). { rewrite map_map. apply map_ext_in. intros v J. apply rd_size; auto. }
      assert (NV' : NoDup (map rho vs)). { apply NoDup_map_inv with (f := vname). rewrite <- EN.
        clear - NV I PR. induction NV as [|u us NI NU IH]; cbn [map]; constructor.
        - intros J. apply in_map_iff in J as (w & Ew & Jw). apply NI. replace u with w; auto. apply (name_inj _ (proj1 PR)); auto. apply I; right; auto. apply I; left; auto.
        - apply IH. intros x J; apply I; right; auto. }
      assert (NE' : map rho vs <> []) by (intros Z; apply map_eq_nil in Z; auto).
      destruct (group_made src vs (proj1 PR) I NE NV) as [G1 W1]. destruct (group_made s (map rho vs) rd_names I' NE' NV') as [G2 W2].
      destruct (proj2 (proj2 (R SY PO)) e n (mkGroup vs vs) E Ln) as (f & g & Q & V & c & Pc & W); auto.
      { split; [exact W1|]. split; [exact NE|]. split; [exact I|exact T]. }
      destruct (proj2 (proj2 (R' rd_symmetric rd_positive)) e' n' (mkGroup (map rho vs) (map rho vs)) E' Ln') as (f' & g' & Q' & V' & c' & Pc' & W').
      - split; [exact W2|]. split; [exact NE'|]. split; [exact I'|].
        eapply (rn_group rho (r_h src) (r_h s) (contents src) (contents s) l); eauto using rd_size, rd_inj.
      - eapply (rn_inside rho (r_h src) (r_h s) (contents src) (contents s) l); eauto using rd_size, rd_inj.
      - apply (rn_observed rho (contents src) (contents s) EV vs I OO).
      - exists f, f', g, g'. cbn [g_soup] in *. split; [|split; [|split; [|split]]].
        + unfold get_joint_names. rewrite (names_found src vs (proj1 PR) I). cbn [lift obind]. rewrite G1. exact Q.
        + unfold get_joint_names. rewrite EN, (names_found s (map rho vs) rd_names I'). cbn [lift obind]. rewrite G2. exact Q'.
        + rewrite V. reflexivity.
        + rewrite V', EN. reflexivity.
        + exists (c' / c)%num. split. apply (ndiv_pos OK); auto. intros k VK. rewrite (W k VK). rewrite (W' k) by (rewrite ES; exact VK).
          destruct (read_distribution OK rnd src s rho rd_coh rd_coh' PR RC EX) as [MM _]. rewrite MM.
          * assert (X : mass (weight (r_h src) (contents src)) (contents src) (fun x => takes_all (map rho vs) k (rename rho x)) =
              mass (weight (r_h src) (contents src)) (contents src) (takes_all vs k)).
            { rewrite <- !total_sum. unfold total. apply bigL_ext. intros x Jx. unfold takes_all. rewrite map_map.
              replace (map (fun v => val (rename rho x) (rho v)) vs) with (map (val x) vs); auto. apply map_ext_in. intros v J. symmetry.
              apply val_rename. intros w Jw. apply rd_inj; auto. rewrite <- (asg_domain _ _ Jx). auto. }
            rewrite X. pose proof (nlt_neq' OK _ _ Pc) as Z. set (m := mass _ _ _). field. auto.
          * intros x y Z. unfold takes_all. replace (map (val y) (map rho vs)) with (map (val x) (map rho vs)); auto. apply map_ext_in. intros w J. apply Z. auto.
    Qed.
  End Read.

  (** {1 The property} *)
  Variables (fprint : N -> string) (atof : string -> N).
  Hypothesis fprint_plain : forall x, plain (fprint x).
  Notation rnd := (fun x => atof (fprint x)).
  Hypothesis rnd_zero : rnd n0 = n0.
  Hypothesis rnd_nonneg : forall x, (n0 <= x)%num -> (n0 <= rnd x)%num.

  Theorem C45_answers_partial : forall h top src e e' h' top' next, (forall f, built (h f)) -> rreach h top alert src -> env_ok e -> env_ok e' ->
    (forall f, built (h' f)) -> printable src -> no_lone_variable src -> all_listed src -> clear_sharing src -> exact_values rnd src ->
    symmetric (r_h src) (contents src) -> positive (weight (r_h src) (contents src)) (contents src) ->
    exists j s, export_json fprint e true src = Ok j /\ import_json atof e' true next j (r_empty h' top') = Ret tt s /\
      (forall v, hidden (contents src) v -> tree_around (r_h src) (contents src) v -> same_marginals src s v) /\
      (forall v, above_floor (r_h src) (contents src) -> hidden (contents src) v -> tree_around (r_h src) (contents src) v -> same_map src s v) /\
      (forall vs, asked (r_h src) (contents src) vs -> same_joint src s vs).
  Proof.
    intros h top src e e' h' top' next Hb R E E' Hb' PR NL AL CL EX SY PO.
    destruct (C45_field_partial OK fprint atof fprint_plain rnd_zero rnd_nonneg h top src e e' h' top' next Hb (alert_careful _ _ _ R) E E' Hb' PR NL AL CL)
      as (j & s & rho & Q1 & Q2 & RC & _ & _ & _ & _ & R').
    pose proof (field_coh h top src Hb R) as CS. pose proof (field_coh h' top' s Hb' R') as C. pose proof (field_answers h top src Hb R) as AS. pose proof (field_answers h' top' s Hb' R') as AN.
    exists j, s. split; [exact Q1|]. split; [exact Q2|]. split; [|split].
    - intros v Hv T. exact (rd_marginals rnd src s rho CS C AS AN PR RC EX SY PO v Hv T).
    - intros v AF Hv T. exact (rd_map rnd src s rho CS C AS AN PR RC EX SY PO v AF Hv T).
    - intros vs AK. exact (rd_joint rnd src s rho CS C AS AN PR RC EX SY PO vs AK).
  Qed.

  Variable place : list nat -> list nat.
  Hypothesis OR : orderly place.
  Variable files : string -> option string.
  Variable prefix : string.
  Theorem C53_answers_partial : forall h top src e e' h' top' next, (forall f, built (h f)) -> rreach h top alert src -> env_ok e -> env_ok e' ->
    (forall f, built (h' f)) -> printable src -> no_lone_variable src -> all_listed src -> clear_sharing src -> exact_values rnd src ->
    symmetric (r_h src) (contents src) -> positive (weight (r_h src) (contents src)) (contents src) ->
    exists t, export_xml fprint e true src = Ok t /\ forall t', reads place t t' ->
    exists s, import_xml atof place files prefix e' true next t' (r_empty h' top') = Ret tt s /\
      (forall v, hidden (contents src) v -> tree_around (r_h src) (contents src) v -> same_marginals src s v) /\
      (forall v, above_floor (r_h src) (contents src) -> hidden (contents src) v -> tree_around (r_h src) (contents src) v -> same_map src s v) /\
      (forall vs, asked (r_h src) (contents src) vs -> same_joint src s vs).
  Proof.
    intros h top src e e' h' top' next Hb R E E' Hb' PR NL AL CL EX SY PO.
    destruct (C53_field_partial OK fprint atof fprint_plain rnd_zero rnd_nonneg place OR files prefix h top src e e' h' top' next Hb (alert_careful _ _ _ R) E E' Hb' PR NL AL CL)
      as (t & Q1 & Q).
    exists t. split; [exact Q1|]. intros t' RT. destruct (Q t' RT) as (s & rho & Q2 & RC & _ & _ & _ & _ & R').
    pose proof (field_coh h top src Hb R) as CS. pose proof (field_coh h' top' s Hb' R') as C. pose proof (field_answers h top src Hb R) as AS. pose proof (field_answers h' top' s Hb' R') as AN.
    exists s. split; [exact Q2|]. split; [|split].
    - intros v Hv T. exact (rd_marginals rnd src s rho CS C AS AN PR RC EX SY PO v Hv T).
    - intros v AF Hv T. exact (rd_map rnd src s rho CS C AS AN PR RC EX SY PO v AF Hv T).
    - intros vs AK. exact (rd_joint rnd src s rho CS C AS AN PR RC EX SY PO vs AK).
  Qed.
End Answers.

(** {1 Examples} *)
Lemma field_symmetric : symmetric (r_h field_state) (contents field_state).
Proof. apply (symmetricb_ok QcNum_ok). vm_compute. reflexivity. Qed.
Lemma field_positive : positive (weight (r_h field_state) (contents field_state)) (contents field_state).
Proof. apply positiveb_ok. vm_compute. reflexivity. Qed.
Lemma field_hidden : hidden (contents field_state) exC.
Proof. apply hiddenb_ok. vm_compute. reflexivity. Qed.
Lemma field_floor : above_floor (r_h field_state) (contents field_state).
Proof. apply above_floorb_ok. vm_compute. reflexivity. Qed.
Lemma field_asked : asked (r_h field_state) (contents field_state) [exA; exC].
Proof.
  assert (E : hidden_edge (r_h field_state) (contents field_state) exA exC) by (apply edgeb_ok; vm_compute; reflexivity).
  assert (E' : hidden_edge (r_h field_state) (contents field_state) exC exA) by (apply edgeb_ok; vm_compute; reflexivity).
  split; [intros Q; inversion Q|]. split. { constructor. intros [Q|[]]. inversion Q. constructor. intros []. constructor. }
  split. { intros v [<-|[<-|[]]]. exact (proj1 (proj1 E)). exact (proj1 (proj1 E')). }
  split. { intros v _ _. exact (field_tree v). }
  split.
  - intros v w [<-|[<-|[]]] [<-|[<-|[]]] _; try apply rt_refl; apply rt_step.
    + split; [exact E|]. split; [left; reflexivity|right; left; reflexivity].
    + split; [exact E'|]. split; [right; left; reflexivity|left; reflexivity].
  - apply one_observedb_ok. vm_compute. reflexivity.
Qed.
(** the field of C49: a chain with a tunable factor and an evidence *)
Example C45_answers_example : exists j s, export_json print6 env_rev true field_state = Ok j /\ import_json read6 env_id true 40 j (r_empty gH 6) = Ret tt s /\
  same_marginals field_state s exC /\ same_map field_state s exC /\ same_joint field_state s [exA; exC].
Proof.
  destruct (C45_answers_partial QcNum_ok print6 read6 print6_plain read6_zero read6_nonneg gH 6 field_state env_rev env_id gH 6 40 gH_built field_reach
    env_rev_ok env_id_ok gH_built field_printable field_lone field_listed field_clear field_exact field_symmetric field_positive) as (j & s & Q1 & Q2 & M & P & J).
  exists j, s. split; [exact Q1|]. split; [exact Q2|]. split; [exact (M exC field_hidden (field_tree exC))|]. split; [exact (P exC field_floor field_hidden (field_tree exC))|exact (J _ field_asked)].
Qed.
Example C53_answers_example : exists t s, export_xml print6 env_rev true field_state = Ok t /\
  import_xml read6 at_front no_file "" env_id true 40 (again at_front t) (r_empty gH 6) = Ret tt s /\ same_marginals field_state s exC /\ same_map field_state s exC /\ same_joint field_state s [exA; exC].
Proof.
  destruct (C53_answers_partial QcNum_ok print6 read6 print6_plain read6_zero read6_nonneg at_front at_front_orderly no_file "" gH 6 field_state env_rev env_id gH 6 40 gH_built field_reach
    env_rev_ok env_id_ok gH_built field_printable field_lone field_listed field_clear field_exact field_symmetric field_positive) as (t & Q1 & Q).
  destruct (Q (again at_front t) (again_reads at_front (proj1 at_front_orderly) t)) as (s & Q2 & M & P & J).
  exists t, s. split; [exact Q1|]. split; [exact Q2|]. split; [exact (M exC field_hidden (field_tree exC))|]. split; [exact (P exC field_floor field_hidden (field_tree exC))|exact (J _ field_asked)].
Qed.

Print Assumptions C45_answers_partial.
Print Assumptions C53_answers_partial.
