(** Conditional random fields whose weights change: which stored factors may be
    older than the weights, and how the evidences make them current again *)
From Coq Require Import String List Arith Bool Lia Permutation.
From Verif Require Import Res Num Categoric Combs Func FuncProofs GroupProofs FactorProofs FactorApi Special SpecialProofs
  Graph GraphLemmas Clusters Belief Query Gibbs GraphInv EvidInv BeliefInv GraphSpec Hist P_Graph BeliefSpec BeliefHist Plan CopyProofs Train TrainHist Coherent TrainInv CRF CRFHist.
Import ListNotations.
Open Scope nat_scope.

Section Ghost.
  Context {N : num} (OK : num_ok N).
  Notation gst := (gst (N:=N)).
  Notation rst := (rst (N:=N)).
  Implicit Types s : rst.
  Implicit Types g : gst.
  Implicit Types H G : nat -> func N.

  Lemma existsb_ext' {B} (p q : B -> bool) l : (forall b, p b = q b) -> existsb p l = existsb q l.
  Proof. intros E. induction l as [|b l IH]; simpl; auto. rewrite E, IH. auto. Qed.
  Lemma hid_ext' g g' : gsize g' = gsize g -> (forall a, g_ev g' a = None <-> g_ev g a = None) -> hid g' = hid g.
  Proof.
    intros S E. unfold hid. rewrite S. apply filter_ext. intros a. f_equal. specialize (E a). destruct (g_ev g' a), (g_ev g a); auto; exfalso; destruct E as [E1 E2].
    discriminate E2; auto. discriminate E1; auto.
  Qed.
  Definition has_dis g a : bool := existsb (fun b => is_some (dis g a b)) (seq 0 (gsize g)).
  (** a stored factor may depend on an older weight of [f]: it is the message of an
      observed variable, or a product of a variable with such messages *)
  Definition pend H g f : bool :=
    match fvars H f with
    | [v] => match find_node g v with Some a => is_some (nd_merged (g_node g a)) && has_dis g a | None => false end
    | [v; w] => match find_node g v, find_node g w with Some a, Some b => is_some (dis g a b) | _, _ => false end
    | _ => false
    end.
  Lemma at_find H g a v : core H g (g_all g) -> var_at g a v -> find_node g v = Some a.
  Proof. intros C V. apply find_node_spec. apply C. exists v. auto. Qed.
  Lemma dis_lt H g a b c : core H g (g_all g) -> dis g a b = Some c -> b < gsize g.
  Proof. intros C D. apply (co_dis _ _ _ C) in D as (_ & _ & va & vb & _ & Hb & _). eapply var_at_lt; eauto. Qed.
  Lemma has_dis_spec H g a : core H g (g_all g) -> (has_dis g a = true <-> exists b c, dis g a b = Some c).
  Proof.
    intros C. unfold has_dis. rewrite existsb_exists. split.
    - intros (b & _ & Q). destruct (dis g a b) as [c|] eqn:D; [|discriminate]. eauto.
    - intros (b & c & D). exists b. split. apply in_seq. pose proof (dis_lt H g a b c C D). lia. rewrite D. auto.
  Qed.
  Lemma pend_un H g a f : core H g (g_all g) -> In f (nd_un (g_node g a)) -> pend H g f = is_some (nd_merged (g_node g a)) && has_dis g a.
  Proof. intros C J. destruct (co_un _ _ _ C a f J) as (_ & v & V & E). unfold pend. rewrite E, (at_find H g a v C V). auto. Qed.
  Lemma pend_dis H g a b c : core H g (g_all g) -> dis g a b = Some c -> pend H g (c_fac c) = true.
  Proof.
    intros C D. destruct (co_dis _ _ _ C _ _ _ D) as (_ & _ & va & vb & Ha & Hb & [E|E]); unfold pend; rewrite E, (at_find H g a va C Ha), (at_find H g b vb C Hb).
    - rewrite D. auto.
    - destruct (co_dis_sym _ _ _ C _ _ _ D) as (c' & D' & _). rewrite D'. auto.
  Qed.
  Lemma pend_group H H' g f : (forall f, f_group (H' f) = f_group (H f)) -> pend H' g f = pend H g f.
  Proof. intros E. unfold pend, fvars, f_vars. rewrite E. auto. Qed.
  Lemma core_group H H' g : (forall f, f_group (H' f) = f_group (H f)) -> harmless H H' g -> core H g (g_all g) -> core H' g (g_all g).
  Proof. intros _ L C. eapply core_heap; eauto. Qed.

  (** [f] is a factor of one of the variables of the nodes [D] *)
  Definition touches H g (D : list nat) f : Prop := exists d v, In d D /\ var_at g d v /\ In v (fvars H f).

  (** the stored factors are those of the objects [G], which are the objects of the
      heap but for the factors above; the variables of the nodes [D] had their
      evidence set since the last change of the weights *)
  Record ghost H G g (D : list nat) : Prop := {
    gh_group : forall f, f_group (G f) = f_group (H f);
    gh_inv : inv G g;
    gh_same : forall f, pend H g f = false \/ touches H g D f -> G f = H f;
    gh_drop : forall d x c, In d D -> dis g x d = Some c -> nd_merged (g_node g x) = None
  }.
  Lemma ghost_refl H g : inv H g -> ghost H H g [].
  Proof. intros I. constructor; auto. intros d x c []. Qed.
  Lemma ghost_nil H G g D : ghost H G g D -> ghost H G g [].
  Proof. intros [A B C E]. constructor; auto. intros f [Q|(d & v & [] & _)]. auto. intros d x c []. Qed.
  Lemma ghost_pend H G g D f : ghost H G g D -> pend H g f = pend G g f.
  Proof. intros Q. symmetry. apply pend_group. apply Q. Qed.
  Lemma ghost_vars H G g D f : ghost H G g D -> fvars G f = fvars H f.
  Proof. intros Q. unfold fvars, f_vars. rewrite (gh_group _ _ _ _ Q). auto. Qed.

  (** when all the evidences were set *)
  Lemma ghost_all H G g D : ghost H G g D -> (forall a, g_ev g a <> None -> In a D) -> inv H g.
  Proof.
    intros Q ALL. pose proof (gh_inv _ _ _ _ Q) as I. pose proof (proj1 I) as C. eapply inv_heap; [|exact I]. constructor.
    - intros f _. symmetry. eapply ghost_vars; eauto.
    - intros a f Ea M J. symmetry. apply (gh_same _ _ _ _ Q). left. rewrite (ghost_pend H G g D f Q), (pend_un G g a f C J).
      destruct (has_dis g a) eqn:X; [|apply andb_false_r]. exfalso. apply (has_dis_spec G g a C) in X as (b & c & X). apply M.
      apply (gh_drop _ _ _ _ Q b a c); auto. apply ALL. intros Eb. rewrite (co_hh _ _ _ C a b Ea Eb) in X. discriminate.
    - intros a b c Ea Eb X. symmetry. apply (gh_same _ _ _ _ Q). right. destruct (co_dis _ _ _ C _ _ _ X) as (_ & _ & va & vb & Ha & Hb & E).
      exists b, vb. splits; auto. rewrite <- (ghost_vars H G g D _ Q). destruct E as [E|E]; rewrite E; simpl; auto.
  Qed.

  Lemma clean_revalued g g' a k k0 : g_ev g a = Some k0 -> revalued g g' a k -> clean g -> clean g'.
  Proof.
    intros E R C x y [c A]. rewrite (rv_act _ _ _ _ R) in A. destruct (C x y) as [Q1 Q2]. { exists c; auto. }
    rewrite (rv_ev _ _ _ _ R). unfold fupd. destruct (Nat.eqb_spec x a); [congruence|]. destruct (Nat.eqb_spec y a); [congruence|]. auto.
  Qed.
  Lemma merge_of_ext G G' e g g' x : g_vars g' = g_vars g -> nd_un (g_node g' x) = nd_un (g_node g x) -> (forall f, In f (nd_un (g_node g x)) -> G' f = G f) ->
    (forall b, dis g' x b = dis g x b) -> merge_of G' e g' x = merge_of G e g x.
  Proof.
    intros EV EU EH ED. unfold merge_of. assert (Q : gather_unaries G' e g' x = gather_unaries G e g x).
    { unfold gather_unaries. rewrite EU. f_equal. apply map_ext_in. intros f J. rewrite EH; auto.
      assert (K : keys (gsize g') (nd_dis (g_node g' x)) = keys (gsize g) (nd_dis (g_node g x))).
      { unfold gsize. rewrite EV. unfold keys. apply filter_ext. intros b. specialize (ED b). unfold dis in ED. rewrite ED. auto. }
      rewrite K. apply map_ext. intros b. rewrite ED. auto. }
    rewrite Q. unfold node_var. rewrite EV. auto.
  Qed.

  (** one evidence *)
  Lemma ghost_revalue H G g D e a v k0 k : ghost H G g D -> (solids H) -> (forall f, built (G f)) -> (forall f, built (H f)) -> env_ok e ->
    var_at g a v -> g_ev g a = Some k0 -> k < vsize v ->
    exists g' G', set_evidence H e g v k = Ret tt g' /\ revalued g g' a k /\ g_last g' = None /\ ghost H G' g' (a :: D) /\ (forall f, built (G' f)).
  Proof.
    intros Q HG BG BH E V Ea L. pose proof (gh_inv _ _ _ _ Q) as I. pose proof (proj1 I) as C.
    assert (SH : shape H g). { eapply shape_heap; [|apply (core_shape _ _ C)]. intros f. symmetry. apply Q. }
    pose proof (revalue H g e a v k0 k SH HG E V Ea) as R. rewrite (proj2 (Nat.leb_gt _ _) L) in R.
    destruct R as (g' & Eg & R & LN & UN & DO & M0 & M1).
    set (tb := fun f => existsb (var_peqb v) (fvars H f)).
    set (G' := fun f => if pend H g' f && negb (tb f) then G f else H f).
    exists g', G'. splits; auto; [|intros f; unfold G'; destruct (_ && _); auto].
    assert (GG : forall f, f_group (G' f) = f_group (G f)).
    { intros f. unfold G'. destruct (_ && _); auto. symmetry. apply Q. }
    assert (FV : forall f, fvars G' f = fvars G f) by (intros f; unfold fvars, f_vars; rewrite GG; auto).
    assert (FH : forall f, fvars G f = fvars H f) by (intros f; eapply ghost_vars; eauto).
    assert (EN : forall x, g_ev g' x = None <-> g_ev g x = None).
    { intros x. rewrite (rv_ev _ _ _ _ R). unfold fupd. destruct (Nat.eqb_spec x a); subst. rewrite Ea. split; discriminate. tauto. }
    assert (VA : forall x w, var_at g' x w <-> var_at g x w) by (intros x w; unfold var_at; rewrite (rv_vars _ _ _ _ R); tauto).
    assert (AL : g_all g' = g_all g) by apply R.
    assert (LK : forall x y f, link G g (g_all g) x y f -> link G' g' (g_all g') x y f).
    { intros x y f (Q1 & Q2 & va & vb & Q3 & Q4 & Q5). split; auto. rewrite AL. split; auto. exists va, vb. rewrite FV, !VA. auto. }
    assert (DF : forall x y c, dis g' x y = Some c -> exists c0, dis g x y = Some c0 /\ c_fac c0 = c_fac c).
    { intros x y c X. pose proof (rv_dis _ _ _ _ R x y) as Y. rewrite X in Y. destruct (dis g x y) as [c0|]; [|discriminate]. injection Y as Y. eauto. }
    assert (DB : forall x y c, dis g x y = Some c -> exists c0, dis g' x y = Some c0 /\ c_fac c0 = c_fac c).
    { intros x y c X. pose proof (rv_dis _ _ _ _ R x y) as Y. rewrite X in Y. destruct (dis g' x y) as [c0|]; [|discriminate]. injection Y as Y. eauto. }
    assert (TB : forall f, tb f = true <-> In v (fvars H f)).
    { intros f. unfold tb. rewrite existsb_exists. split. intros (w & J & X). apply var_peqb_eq in X. subst; auto. intros J. exists v. split; auto. apply var_peqb_eq; auto. }
    (* the factors of a hidden variable and of another observed one *)
    assert (NT : forall x y c, g_ev g x = None -> y <> a -> dis g x y = Some c -> tb (c_fac c) = false).
    { intros x y c Ex Ny X. destruct (tb (c_fac c)) eqn:Y; auto. exfalso. apply TB in Y. destruct (co_dis _ _ _ C _ _ _ X) as (_ & _ & vx & vy & Hx & Hy & W).
      assert (J : v = vx \/ v = vy). { rewrite <- FH in Y. destruct W as [W|W]; rewrite W in Y; destruct Y as [<-|[<-|[]]]; auto. }
      destruct J as [->| ->]. destruct (var_at_inj g x a vx vx (co_vars _ _ _ C) Hx V eq_refl); congruence. destruct (var_at_inj g y a vy vy (co_vars _ _ _ C) Hy V eq_refl); congruence. }
    assert (NU : forall x f, x <> a -> In f (nd_un (g_node g x)) -> tb f = false).
    { intros x f Nx J. destruct (tb f) eqn:Y; auto. exfalso. apply TB in Y. rewrite <- FH in Y. destruct (co_un _ _ _ C x f J) as (_ & w & W & X). rewrite X in Y. destruct Y as [->|[]].
      destruct (var_at_inj g x a v v (co_vars _ _ _ C) W V eq_refl); congruence. }
    assert (PD : forall x y c, dis g' x y = Some c -> pend H g' (c_fac c) = true).
    { intros x y c X. destruct (DF x y c X) as (c0 & X0 & F0). pose proof (pend_dis G g x y c0 C X0) as P. rewrite F0 in P.
      rewrite (pend_group H G g) in P by apply Q. revert P. unfold pend. destruct (fvars H (c_fac c)) as [|z [|w [|]]] eqn:W; auto.
      - exfalso. destruct (co_dis _ _ _ C _ _ _ X0) as (_ & _ & vx & vy & _ & _ & [Z|Z]); rewrite F0, FH, W in Z; discriminate.
      - unfold find_node. rewrite (rv_vars _ _ _ _ R). destruct (find_pos _ _) as [x'|]; auto. destruct (find_pos _ _) as [y'|]; auto.
        destruct (dis g x' y') as [c1|] eqn:Z; [|discriminate]. intros _. destruct (DB _ _ _ Z) as (c2 & -> & _). auto. }
    assert (HD : forall x, has_dis g' x = has_dis g x).
    { intros x. unfold has_dis, gsize. rewrite (rv_vars _ _ _ _ R). apply existsb_ext'. intros y. pose proof (rv_dis _ _ _ _ R x y) as Y.
      destruct (dis g' x y), (dis g x y); auto; discriminate. }
    assert (PU : forall x f, In f (nd_un (g_node g x)) -> pend H g' f = is_some (nd_merged (g_node g' x)) && has_dis g x).
    { intros x f J. destruct (co_un _ _ _ C x f J) as (_ & w & W & X). unfold pend. rewrite <- FH, X. unfold find_node. rewrite (rv_vars _ _ _ _ R).
      fold (find_node g w). rewrite (at_find G g x w C W), HD. auto. }
    assert (ME : forall x, nd_merged (g_node g x) = None -> nd_merged (g_node g' x) = None).
    { intros x M. destruct (dis g x a) as [c|] eqn:X. apply (M1 x c X). rewrite (M0 x X). auto. }
    constructor.
    - intros f. rewrite GG. apply Q.
    - split.
      + destruct C as [c1 c2 c3 c4 c5 c6 c7 c8 c9 c10 c11 c12 c13 c14 c15 c16]. constructor.
        * rewrite (rv_vars _ _ _ _ R). auto.
        * rewrite (rv_vars _ _ _ _ R). auto.
        * intros x j. rewrite (rv_ev _ _ _ _ R). unfold fupd. destruct (Nat.eqb_spec x a); subst. intros [= <-]. exists v. rewrite VA. auto.
          intros X. destruct (c3 x j X) as (w & W & LW). exists w. rewrite VA. auto.
        * intros x y c X. rewrite (rv_act _ _ _ _ R) in X. apply LK. eauto.
        * intros x y c X. rewrite (rv_act _ _ _ _ R) in X. destruct (c5 x y c X) as (c' & X' & F). exists c'. rewrite (rv_act _ _ _ _ R). auto.
        * intros x y c X. destruct (DF x y c X) as (c0 & X0 & <-). apply LK. eauto.
        * intros x y c X. destruct (DF x y c X) as (c0 & X0 & <-). destruct (c7 x y c0 X0) as (c' & X' & <-). destruct (DB y x c' X') as (c'' & X'' & F). eauto.
        * intros x y c d X Y. rewrite (rv_act _ _ _ _ R) in X. destruct (DF x y d Y) as (d0 & Y0 & _). eapply c8; eauto.
        * intros x y Ex Ey. apply EN in Ex, Ey. specialize (c9 x y Ex Ey). destruct (dis g' x y) as [c|] eqn:X; auto. destruct (DF x y c X) as (c0 & X0 & _). congruence.
        * intros x y Ex Ey. rewrite (rv_act _ _ _ _ R). apply c10; rewrite <- EN; auto.
        * intros x f J. rewrite UN in J. destruct (c11 x f J) as (J' & w & W & X). rewrite AL. split; auto. exists w. rewrite VA, FV. auto.
        * intros x. rewrite UN. auto.
        * rewrite AL. auto.
        * intros f J. rewrite AL in J. destruct (c14 f J) as [(w & x & X & W & J')|(vx & vy & x & y & c & X & Hx & Hy & D' & F)].
          left. exists w, x. rewrite FV, VA, UN. auto. right. destruct D' as [D'|D'].
          exists vx, vy, x, y, c. rewrite FV, !VA, (rv_act _ _ _ _ R). splits; auto.
          destruct (DB x y c D') as (c' & D'' & F'). exists vx, vy, x, y, c'. rewrite FV, !VA. splits; auto. congruence.
        * intros x y c j w Ex Ey X W. apply EN in Ex. apply VA in W. destruct (Nat.eq_dec y a) as [->|Ny].
          -- destruct (DF x a c X) as (c0 & X0 & F0). destruct (M1 x c0 X0) as (_ & m & X' & EF). rewrite X in X'. injection X' as ->. cbn [c_msg c_fac with_msg] in *.
             rewrite (rv_ev _ _ _ _ R), fupd_eq in Ey. injection Ey as <-. assert (w = v) by (eapply var_at_fun; eauto). subst w. exists m. split; auto. unfold G'.
             assert (T : tb (c_fac c0) = true). { apply TB. destruct (c6 _ _ _ X0) as (_ & _ & vx & vy & Hx & Hy & Z). assert (vy = v) by (eapply var_at_fun; eauto). subst vy. rewrite <- FH. destruct Z as [Z|Z]; rewrite Z; simpl; auto. }
             rewrite T, andb_false_r. auto.
          -- rewrite (rv_ev _ _ _ _ R), fupd_ne in Ey by auto. pose proof X as X0. rewrite DO in X0 by auto. destruct (c15 x y c j w Ex Ey X0 W) as (m & Em & EF). exists m. split; auto.
             unfold G'. rewrite (PD x y c X), (NT x y c Ex Ny X0). auto.
        * intros x m Ex Em. apply EN in Ex. destruct (dis g x a) as [c|] eqn:X; [rewrite (proj1 (M1 x c X)) in Em; discriminate|].
          rewrite (M0 x X) in Em. destruct (c16 x m Ex Em) as (e0 & E0 & MO). exists e0. split; auto. rewrite <- MO. apply merge_of_ext; auto. apply R.
          -- intros f J. assert (Nx : x <> a) by congruence. unfold G'. rewrite (NU x f Nx J), andb_true_r. rewrite (PU x f J), (M0 x X), Em. cbn [is_some andb].
             destruct (has_dis g x) eqn:Y; auto. symmetry. apply (gh_same _ _ _ _ Q). left. rewrite (ghost_pend H G g D f Q).
             rewrite (pend_un G g x f (proj1 I) J), Y. apply andb_false_r.
          -- intros b. destruct (Nat.eq_dec b a) as [->|Nb]; [|apply DO; auto]. rewrite X. destruct (dis g' x a) as [c'|] eqn:Z; auto. destruct (DF x a c' Z) as (c0 & Z0 & _). congruence.
      + eapply clus_ext; [| | |apply I]. apply R. apply hid_ext'. unfold gsize. rewrite (rv_vars _ _ _ _ R). auto. exact EN. intros x y. rewrite (rv_act _ _ _ _ R). auto.
    - intros f X. unfold G'. destruct (pend H g' f) eqn:P; cbn [andb]; auto. destruct (tb f) eqn:T; cbn [negb]; auto.
      destruct X as [X|(d & w & Jd & W & J)]; [discriminate|]. apply VA in W. destruct Jd as [<-|Jd].
      + exfalso. assert (w = v) by (eapply var_at_fun; eauto). subst. apply TB in J. congruence.
      + apply (gh_same _ _ _ _ Q). right. exists d, w. auto.
    - intros d x c Jd X. destruct (DF x d c X) as (c0 & X0 & _). destruct Jd as [<-|Jd]. apply (M1 x c0 X0). apply ME. apply (gh_drop _ _ _ _ Q d x c0); auto.
  Qed.
End Ghost.

(** {1 Models whose weights changed} *)
Section Weak.
  Context {N : num} (OK : num_ok N).
  Notation gst := (gst (N:=N)).
  Notation rst := (rst (N:=N)).
  Implicit Types s : rst.

  Record weakD (D : list nat) s : Prop := {
    wk_r : rinv s;
    wk_ghost : exists G, (forall f, built (G f)) /\ ghost (r_h s) G (r_g s) D;
    wk_clean : clean (r_g s)
  }.
  Definition weak s : Prop := weakD [] s.
  Lemma coh_weak s : coh True s -> weak s.
  Proof. intros [I V C]. constructor; auto. exists (r_h s). split. apply I. apply ghost_refl; auto. Qed.
  Lemma weakD_weak D s : weakD D s -> weak s.
  Proof. intros [I (G & B & Q) C]. constructor; auto. exists G. split; auto. eapply ghost_nil; eauto. Qed.
  Lemma weak_coh D s : weakD D s -> (forall a, g_ev (r_g s) a <> None -> In a D) -> coh True s.
  Proof. intros [I (G & B & Q) C] ALL. constructor; auto. eapply ghost_all; eauto. Qed.
  Lemma weak_good D s : weakD D s -> solids (r_h s).
  Proof. intros W. apply built_solids. apply (wk_r _ _ W). Qed.
  Lemma weak_cinv D s : weakD D s -> cinv s.
  Proof.
    intros [I (G & B & Q) C]. split; auto. eapply shape_heap; [|apply core_shape, (proj1 (gh_inv _ _ _ _ Q))]. intros f. symmetry. apply Q.
  Qed.
  Lemma weak_g s g : weak s -> g_vars g = g_vars (r_g s) -> g_node g = g_node (r_g s) -> g_ev g = g_ev (r_g s) -> g_cl g = g_cl (r_g s) -> g_all g = g_all (r_g s) -> weak (set_g s g).
  Proof.
    intros [I (G & B & [Q1 [C1 C2] Q3 Q4]) C] E1 E2 E3 E4 E5. constructor.
    - apply step_g; auto.
    - exists G. split; auto. cbn [r_h r_g set_g].
      assert (DI : forall x y, dis g x y = dis (r_g s) x y) by (intros; unfold dis; rewrite E2; auto).
      assert (PE : forall f, pend (r_h s) g f = pend (r_h s) (r_g s) f).
      { intros f. unfold pend, find_node, has_dis, gsize. rewrite E1, E2. destruct (fvars (r_h s) f) as [|v [|w [|]]]; auto; destruct (find_pos _ _) as [a|]; auto.
        f_equal. apply existsb_ext'. intros b. rewrite DI. auto. destruct (find_pos _ _) as [b|]; auto. rewrite DI. auto. }
      constructor; auto.
      + split. rewrite E5. eapply core_same; [| | |exact C1]; auto. eapply clus_same; [| | | |exact C2]; auto.
      + intros f [X|(d & v & [] & _)]. apply Q3. left. rewrite <- PE. auto.
      + intros d x c [].
    - intros x y [c A]. cbn [r_g set_g] in *. rewrite E3. apply C. exists c. unfold act in *. rewrite <- E2. auto.
  Qed.

  (** the tunable factors of one variable are on variables joined to an observed one *)
  Definition exposed s : Prop := forall c f v, In c (tunable_clusters s) -> In f c -> f_vars (r_h s f) = [v] ->
    exists f' w, In f' (g_all (r_g s)) /\ (f_vars (r_h s f') = [v; w] \/ f_vars (r_h s f') = [w; v]) /\ ~ unobserved s w.

  Lemma exposed_dis H s a v w f' : core H (r_g s) (g_all (r_g s)) -> (forall f, f_vars (H f) = f_vars (r_h s f)) -> clean (r_g s) ->
    var_at (r_g s) a v -> In f' (g_all (r_g s)) -> (f_vars (r_h s f') = [v; w] \/ f_vars (r_h s f') = [w; v]) -> ~ unobserved s w ->
    has_dis (r_g s) a = true.
  Proof.
    intros C FV CL V J E O. apply (has_dis_spec H _ _ C).
    pose proof (spec_of_abs (r_g s) (co_vars _ _ _ C)) as AB.
    assert (OB : forall b, var_at (r_g s) b w -> g_ev (r_g s) b <> None).
    { intros b Hb Eb. apply O. unfold unobserved, sp_observed. change (vname w, vsize w) with (vkey w). pose proof (ab_ev _ _ AB b w Hb) as X. rewrite Eb in X. rewrite <- X. destruct (sp_known _ w); auto. }
    destruct (co_fac _ _ _ C f' J) as [(x & q & X & _)|(vx & vy & x & y & c & X & Hx & Hy & D & F)]; unfold fvars in X; rewrite FV in X.
    { destruct E as [E|E]; rewrite E in X; discriminate. }
    assert (K : forall x y c, act (r_g s) x y = Some c -> g_ev (r_g s) x = None /\ g_ev (r_g s) y = None) by (intros ? ? c' A; apply CL; exists c'; auto).
    destruct E as [E|E]; rewrite E in X; injection X as <- <-.
    - destruct (var_at_inj _ _ _ _ _ (co_vars _ _ _ C) V Hx eq_refl) as [<- _]. destruct D as [D|D]; eauto. exfalso. apply K in D as [_ D]. apply (OB y); auto.
    - destruct (var_at_inj _ _ _ _ _ (co_vars _ _ _ C) V Hy eq_refl) as [<- _]. destruct D as [D|D]. exfalso. apply K in D as [D _]. apply (OB x); auto.
      apply (co_dis_sym _ _ _ C) in D as (c' & D & _). eauto.
  Qed.

  Lemma set_weights_weak ws s : weak s -> exposed s -> match set_weights ws s with Ret _ s' | Thr s' => weak s' | _ => True end.
  Proof.
    intros W EX. pose proof W as [I (G & B & Q) CL]. pose proof (set_weights_step s ws I) as ST.
    destruct (Nat.eq_dec (length ws) (length (r_tuners s))) as [L|L].
    2:{ unfold set_weights. apply Nat.eqb_neq in L. rewrite L. auto. }
    destruct (set_weights_ok s ws I L) as (h' & E & P1 & P2). rewrite E in *. cbn [ostep] in ST. destruct ST as [I' L'].
    assert (GR : forall f, f_group (h' f) = f_group (r_h s f)).
    { intros f. destruct (in_dec Nat.eq_dec f (concat (tunable_clusters s))) as [J|J]; [|rewrite P2; auto].
      apply in_concat in J as (c & Jc & Jf). apply In_nth_error in Jc as (k & Hc).
      destruct (nth_error ws k) as [w|] eqn:Hw. rewrite (P1 k c w f); auto. exfalso. apply nth_error_None in Hw.
      assert (k < length (tunable_clusters s)) by (apply nth_error_Some; congruence). unfold tunable_clusters in H. rewrite map_length in H. lia. }
    set (H := r_h s) in *. set (g := r_g s) in *. pose proof (gh_inv _ _ _ _ Q) as [C C2].
    set (G' := fun f => if pend H g f then G f else h' f).
    assert (GG : forall f, f_group (G' f) = f_group (G f)).
    { intros f. unfold G'. destruct (pend H g f); auto. rewrite GR. symmetry. apply Q. }
    assert (HM : harmless G G' g).
    { constructor.
      - intros f _. unfold fvars, f_vars. rewrite GG. auto.
      - intros a f Ea M J. unfold G'. rewrite (ghost_pend H G g [] f Q), (pend_un G g a f C J). destruct (nd_merged (g_node g a)) as [m|]; [|congruence]. cbn [is_some andb].
        destruct (has_dis g a) eqn:X; auto. assert (PF : pend H g f = false) by (rewrite (ghost_pend H G g [] f Q), (pend_un G g a f C J), X; apply andb_false_r).
        rewrite (gh_same _ _ _ _ Q f (or_introl PF)). apply P2. intros JC. apply in_concat in JC as (c & Jc & Jf).
        destruct (co_un _ _ _ C a f J) as (_ & v & V & FV). rewrite (ghost_vars H G g [] f Q) in FV. destruct (EX c f v Jc Jf FV) as (f' & w & J' & FV' & O).
        pose proof (exposed_dis G s a v w f' C) as K. fold g in K. rewrite K in X; auto. discriminate. intros k. unfold f_vars. rewrite (gh_group _ _ _ _ Q). auto.
      - intros a b c Ea Eb X. unfold G'. rewrite (ghost_pend H G g [] _ Q), (pend_dis G g a b c C X). auto. }
    assert (W1 : weak (set_h s h')).
    { constructor.
      - destruct I'. constructor; auto.
      - exists G'. split. { intros f. unfold G'. destruct (pend H g f); auto. apply (ri_built _ I'). }
        cbn [r_h r_g set_h]. fold g. constructor.
        + intros f. rewrite GG. rewrite GR. apply Q.
        + apply (inv_heap G G'); auto. split; auto.
        + intros f [X|(d & v & [] & _)]. unfold G'. rewrite (pend_group H h') in X by auto. rewrite X. auto.
        + intros d x c [].
      - auto. }
    apply (weak_g (set_h s h') (reset_belief g)) in W1; auto.
  Qed.
  Lemma set_all_ones_weak s : weak s -> exposed s -> match set_all_ones s with Ret _ s' | Thr s' => weak s' | _ => True end.
  Proof. intros W EX. unfold set_all_ones. destruct (get_weights s); cbn [lift obind]; auto. apply set_weights_weak; auto. Qed.

  (** {1 Evidences} *)
  Lemma one_evidence_weak D e p s : weakD D s -> env_ok e -> g_ev (r_g s) (fst p) <> None ->
    if fits (r_g s) p then exists g, one_evidence e p s = Ret tt (set_g s g) /\ revalued (r_g s) g (fst p) (snd p) /\ g_last g = None /\ weakD (fst p :: D) (set_g s g)
    else one_evidence e p s = Thr s.
  Proof.
    intros W E EV. pose proof W as [I (G & B & Q) CL]. destruct p as [a k]. cbn [fst snd] in *. destruct (g_ev (r_g s) a) as [k0|] eqn:E0; [|congruence].
    pose proof (weak_cinv D s W) as CI. destruct (sh_ev _ _ (ci_shape _ CI) a k0 E0) as (v & V & _). unfold fits, one_evidence. cbn [fst snd]. unfold var_at in V. rewrite V.
    rewrite (node_var_ok _ _ _ V). cbn [lift obind]. unfold on_g.
    destruct (Nat.ltb_spec k (vsize v)) as [L|L].
    - destruct (ghost_revalue (r_h s) G (r_g s) D e a v k0 k Q (weak_good D s W) B (ri_built _ I) E V E0 L) as (g & G' & Eg & R & LN & Q' & B').
      rewrite Eg. exists g. splits; auto. constructor.
      + apply step_g; auto; apply R.
      + exists G'. auto.
      + eapply clean_revalued; eauto.
    - pose proof (revalue (r_h s) (r_g s) e a v k0 k (ci_shape _ CI) (weak_good D s W) E V E0) as R.
      rewrite (proj2 (Nat.leb_le _ _) L) in R. rewrite R. destruct s; auto.
  Qed.
  Lemma evidences_weak e l : env_ok e -> forall D s, weakD D s -> (forall p, In p l -> g_ev (r_g s) (fst p) <> None) ->
    match ofold (one_evidence e) l s with
    | Ret _ s' => weakD (rev (map fst l) ++ D) s' /\ (l <> [] -> g_last (r_g s') = None)
    | Thr s' => weak s'
    | _ => True
    end.
  Proof.
    intros E. induction l as [|p l IH]; cbn [ofold]; intros D s W O. { simpl. split; auto. congruence. }
    pose proof (one_evidence_weak D e p s W E (O p (or_introl eq_refl))) as P1. destruct (fits (r_g s) p).
    - destruct P1 as (g & -> & R & LN & W1). cbn [obind]. specialize (IH (fst p :: D) (set_g s g) W1).
      destruct (ofold (one_evidence e) l (set_g s g)) as [[] s'|s'| | |] eqn:EO; auto.
      + destruct IH as [IH1 IH2]. { intros q J. cbn [r_g set_g]. rewrite (rv_ev _ _ _ _ R). unfold fupd. destruct (fst q =? fst p). discriminate. apply O. right; auto. }
        split. cbn [map rev]. rewrite <- app_assoc. auto. intros _. destruct l as [|q l]; [|apply IH2; discriminate]. cbn [ofold] in EO. injection EO as <-. auto.
      + apply IH. intros q J. cbn [r_g set_g]. rewrite (rv_ev _ _ _ _ R). unfold fupd. destruct (fst q =? fst p). discriminate. apply O. right; auto.
    - rewrite P1. cbn [obind]. eapply weakD_weak; eauto.
  Qed.

  (** [setEvidences] makes the stored factors those of the current weights *)
  Lemma order_obs e s : cinv s -> env_ok e -> forall a, In a (evidence_order e (r_g s)) <-> g_ev (r_g s) a <> None.
  Proof. intros I E a. apply evidence_order_in; auto. intros b j. apply cinv_lt; auto. Qed.
  Lemma set_evidences_weak e values s : weak s -> env_ok e ->
    match set_evidences e values s with
    | Ret _ s' => coh True s' /\ (evidence_order e (r_g s) <> [] -> g_last (r_g s') = None)
    | Thr s' => weak s'
    | _ => True
    end.
  Proof.
    intros W E. pose proof (weak_cinv [] s W) as CI. pose proof (set_evidences_cst e values s CI E) as ST. unfold set_evidences in *.
    destruct (Nat.eqb_spec (length values) (length (evidence_order e (r_g s)))) as [L|L]; auto.
    pose proof (evidences_weak e (combine (evidence_order e (r_g s)) values) E [] s W) as Q.
    change (fun p s => do (v, s0) <- lift (node_var (r_g s) (fst p)) s ;; on_g (fun g => set_evidence (r_h s0) e g v (snd p)) s0) with (one_evidence (N:=N) e) in *.
    assert (ML : map fst (combine (evidence_order e (r_g s)) values) = evidence_order e (r_g s)).
    { clear -L. revert L. generalize (evidence_order e (r_g s)) as ks. intros ks. revert values. induction ks as [|a ks IH]; intros [|x v] L; simpl in *; try discriminate; auto. f_equal. auto. }
    destruct (ofold (one_evidence e) _ s) as [[] s'|s'| | |]; auto.
    - destruct Q as [Q1 Q2]. { intros [a k] J. apply in_combine_l in J. apply (order_obs e s CI E) in J. auto. }
      split. { eapply weak_coh; [exact Q1|]. intros a Oa. rewrite app_nil_r. apply in_rev. rewrite rev_involutive, ML. apply (order_obs e s CI E). rewrite <- (fz_obs _ _ (cp_fz _ _ ST)). auto. }
      intros NE. apply Q2. intros Z. rewrite Z in ML. simpl in ML. auto.
    - apply Q. intros [a k] J. apply in_combine_l in J. apply (order_obs e s CI E) in J. auto.
  Qed.

  (** the evidences of a sample *)
  Definition sample_step (e : env) (pos comb : list nat) (p : nat * nat) s : out rst unit :=
    do (v, s) <- lift (node_var (r_g s) (snd p)) s ;;
    do (i, s) <- lift (vget pos (fst p)) s ;;
    do (x, s) <- lift (vget comb i) s ;;
    on_g (fun g => set_evidence (r_h s) e g v x) s.
  Lemma sample_step_weak D e pos comb p s : weakD D s -> env_ok e -> g_ev (r_g s) (snd p) <> None ->
    match sample_step e pos comb p s with
    | Ret _ s' => weakD (snd p :: D) s' /\ g_last (r_g s') = None /\ forall a, g_ev (r_g s') a = None <-> g_ev (r_g s) a = None
    | Thr s' => weak s'
    | _ => True
    end.
  Proof.
    intros W E O. destruct p as [j a]. cbn [fst snd] in *. unfold sample_step. cbn [fst snd].
    assert (W0 : weak s) by (eapply weakD_weak; eauto).
    destruct (node_var (r_g s) a) as [v| | | |] eqn:Ev; cbn [lift obind]; auto.
    destruct (vget pos j) as [i| | | |]; cbn [lift obind]; auto. destruct (vget comb i) as [x| | | |]; cbn [lift obind]; auto.
    pose proof (one_evidence_weak D e (a, x) s W E O) as Q. unfold one_evidence in Q. cbn [fst snd] in Q. rewrite Ev in Q. cbn [lift obind] in Q.
    destruct (fits (r_g s) (a, x)).
    - destruct Q as (g & -> & R & LN & W1). splits; auto. intros b. cbn [r_g set_g]. rewrite (rv_ev _ _ _ _ R). unfold fupd. destruct (Nat.eqb_spec b a); subst; [|tauto]. split; [discriminate|]. congruence.
    - rewrite Q. auto.
  Qed.
  Lemma sample_fold_weak e pos comb l : env_ok e -> forall D s, weakD D s -> (forall p, In p l -> g_ev (r_g s) (snd p) <> None) ->
    match ofold (sample_step e pos comb) l s with
    | Ret _ s' => weakD (rev (map snd l) ++ D) s' /\ (l <> [] -> g_last (r_g s') = None)
    | Thr s' => weak s'
    | _ => True
    end.
  Proof.
    intros E. induction l as [|p l IH]; cbn [ofold]; intros D s W O. { simpl. split; auto. congruence. }
    pose proof (sample_step_weak D e pos comb p s W E (O p (or_introl eq_refl))) as P1. destruct (sample_step e pos comb p s) as [[] s1|s1| | |]; cbn [obind]; auto.
    destruct P1 as (W1 & LN & EV). assert (O1 : forall q, In q l -> g_ev (r_g s1) (snd q) <> None). { intros q J. rewrite EV. apply O. right; auto. }
    specialize (IH (snd p :: D) s1 W1 O1). destruct (ofold (sample_step e pos comb) l s1) as [[] s'|s'| | |] eqn:EO; auto.
    destruct IH as [IH1 IH2]. split. cbn [map rev]. rewrite <- app_assoc. auto. intros _. destruct l as [|q l]; [|apply IH2; discriminate]. cbn [ofold] in EO. injection EO as <-. auto.
  Qed.
  Lemma snd_combine_seq (ks : list nat) : map snd (combine (seq 0 (length ks)) ks) = ks.
  Proof. generalize 0. induction ks as [|a ks IH]; intros n; simpl; auto. f_equal. auto. Qed.
  Lemma sample_evidences_weak e pos comb s : weak s -> env_ok e ->
    match sample_evidences e pos comb s with
    | Ret _ s' => coh True s' /\ (evidence_order e (r_g s) <> [] -> g_last (r_g s') = None)
    | Thr s' => weak s'
    | _ => True
    end.
  Proof.
    intros W E. pose proof (weak_cinv [] s W) as CI. pose proof (sample_evidences_cst e pos comb s CI E) as ST. unfold sample_evidences in *.
    set (ks := evidence_order e (r_g s)) in *. pose proof (sample_fold_weak e pos comb (combine (seq 0 (length ks)) ks) E [] s W) as Q. unfold sample_step in Q.
    pose proof (snd_combine_seq ks) as ML. assert (O : forall p, In p (combine (seq 0 (length ks)) ks) -> g_ev (r_g s) (snd p) <> None).
    { intros [j a] J. apply in_combine_r in J. apply (order_obs e s CI E) in J. auto. }
    specialize (Q O). rewrite ML in Q. destruct (ofold _ _ s) as [[] s'|s'| | |]; auto. destruct Q as [Q1 Q2].
    split. { eapply weak_coh; [exact Q1|]. intros a Oa. rewrite app_nil_r. apply in_rev. rewrite rev_involutive. apply (order_obs e s CI E). rewrite <- (fz_obs _ _ (cp_fz _ _ ST)). auto. }
    intros NE. apply Q2. intros Z. rewrite Z in ML. simpl in ML. auto.
  Qed.
End Weak.

(** {1 Tuners} *)
Section CTuners.
  Context {N : num} (OK : num_ok N).
  Notation rst := (rst (N:=N)).
  Implicit Types s : rst.

  (** the nodes and the positions stored by a tuner of a conditional random field *)
  Definition ctuner_ok s (b : btuner) : Prop :=
    bt_fac b < r_top s /\
    match bt_kind b with
    | TUnary a => exists v, f_vars (r_h s (bt_fac b)) = [v] /\ var_at (r_g s) a v /\ bt_idx b = [a] /\ g_ev (r_g s) a = None
    | TBinary a c => exists v w, f_vars (r_h s (bt_fac b)) = [v; w] /\ var_at (r_g s) a v /\ var_at (r_g s) c w /\ bt_idx b = [a; c] /\
        g_ev (r_g s) a = None /\ g_ev (r_g s) c = None
    | THidObs a c first => exists v w, f_vars (r_h s (bt_fac b)) = (if first then [v; w] else [w; v]) /\ var_at (r_g s) a v /\ var_at (r_g s) c w /\
        bt_idx b = (if first then [a; c] else [c; a]) /\ g_ev (r_g s) a = None /\ g_ev (r_g s) c <> None
    end.
  Definition ctinv s : Prop := forall t b, In t (r_tuners s) -> In b (bases t) -> ctuner_ok s b.

  Lemma ctinv_frozen s s' : frozen s s' -> ctinv s -> ctinv s'.
  Proof.
    intros F T t b It Ib. rewrite (fz_tuners _ _ F) in It. destruct (T t b It Ib) as [L Q]. split. rewrite (fz_top _ _ F); auto.
    unfold f_vars, var_at in *. rewrite (fz_group _ _ F), (fz_vars _ _ F). destruct (bt_kind b).
    - destruct Q as (v & Q1 & Q2 & Q3 & Q4). exists v. splits; auto. apply F; auto.
    - destruct Q as (v & w & Q1 & Q2 & Q3 & Q4 & Q5 & Q6). exists v, w. splits; auto; apply F; auto.
    - destruct Q as (v & w & Q1 & Q2 & Q3 & Q4 & Q5 & Q6). exists v, w. splits; auto. apply F; auto. rewrite (fz_obs _ _ F). auto.
  Qed.

  Lemma observed_at_ok s a v : NoDup (map vkey (g_vars (r_g s))) -> var_at (r_g s) a v ->
    observed_at (r_g s) v = match g_ev (r_g s) a with Some _ => Some a | None => None end /\ find_node (r_g s) v = Some a.
  Proof.
    intros ND V. assert (F : find_node (r_g s) v = Some a) by (apply find_node_spec; eauto). unfold observed_at. rewrite F. auto.
  Qed.
  Lemma replace_ok s b b' : coh True s -> tuner_ok s b -> replace_if_needed s b = Ok b' -> ctuner_ok s b'.
  Proof.
    intros C [L T] Q. pose proof (ri_nd _ (ch_r _ _ C)) as ND0. assert (ND : NoDup (map vkey (g_vars (r_g s)))) by (apply C).
    unfold replace_if_needed in Q. destruct (bt_kind b) as [a|a c|] eqn:KB; [| |destruct T].
    - destruct T as (v & FV & V & IX). rewrite FV in Q. destruct (observed_at_ok s a v ND V) as [O _]. rewrite O in Q.
      destruct (g_ev (r_g s) a) eqn:E; [discriminate|]. injection Q as <-. split; auto. rewrite KB. exists v. splits; auto.
    - destruct T as (v & w & FV & V & W & IX). rewrite FV in Q. destruct (observed_at_ok s a v ND V) as [O F]. destruct (observed_at_ok s c w ND W) as [O' F']. rewrite O, O', F, F' in Q.
      assert (NE : a <> c).
      { intros <-. unfold var_at in *. assert (v = w) by congruence. subst w. destruct (built_solid _ (ri_built _ (ch_r _ _ C) (bt_fac b))) as ((_ & [D _]) & _).
        change (g_soup (f_group (r_h s (bt_fac b)))) with (f_vars (r_h s (bt_fac b))) in D. rewrite FV in D. simpl in D. inversion D as [|? ? NI]; subst. apply NI. left; auto. }
      assert (IDX : forall fd, make_finder (r_h s (bt_fac b)) (g_vars (r_g s)) = Ok fd -> fd_idx fd = [a; c]).
      { intros fd Qf. destruct (finder_idx _ _ _ Qf) as [_ X]. rewrite FV in X. inversion X as [|? k ? l Hk X']; subst. inversion X' as [|? k' ? l' Hk' X'']; subst. inversion X''; subst.
        f_equal. eapply var_at_inj; eauto. f_equal. eapply var_at_inj; eauto. }
      destruct (g_ev (r_g s) a) eqn:E, (g_ev (r_g s) c) eqn:E'; try discriminate.
      + apply rbind_ok in Q as (fd & Qf & Q). rewrite (node_var_ok _ _ _ V) in Q. cbn [rbind] in Q. injection Q as <-. split; auto. cbn [bt_kind bt_fac bt_idx].
        rewrite (proj2 (var_peqb_eq v v) eq_refl). cbn [negb]. exists w, v. splits; auto. congruence.
      + apply rbind_ok in Q as (fd & Qf & Q). rewrite (node_var_ok _ _ _ W) in Q. cbn [rbind] in Q. injection Q as <-. split; auto. cbn [bt_kind bt_fac bt_idx].
        assert (PE : var_peqb v w = false). { destruct (var_peqb v w) eqn:X; auto. apply var_peqb_eq in X. subst w. exfalso. apply NE. eapply var_at_inj; eauto. }
        rewrite PE. cbn [negb]. exists v, w. splits; auto. congruence.
      + injection Q as <-. split; auto. rewrite KB. exists v, w. splits; auto.
  Qed.
  Lemma replace_tuners_ok s ts : coh True s -> tinv s -> rmap (replace_tuner s) (r_tuners s) = Ok ts -> ctinv (set_tuners s ts).
  Proof.
    intros C T Q t b It Ib. cbn [r_tuners set_tuners] in It. pose proof (rmap_F2 _ _ _ Q) as F.
    destruct (F2_in_r _ _ _ F t It) as (t0 & I0 & Q0). change (ctuner_ok s b).
    destruct t0 as [b0|l0]; simpl in Q0.
    - apply rbind_ok in Q0 as (b' & Q0 & [= <-]). destruct Ib as [<-|[]]. apply (replace_ok s b0); auto. apply (T (TBase b0)); simpl; auto.
    - apply rbind_ok in Q0 as (l' & Q0 & [= <-]). simpl in Ib. apply rmap_F2 in Q0. destruct (F2_in_r _ _ _ Q0 b Ib) as (b0 & J0 & R0). apply (replace_ok s b0); auto. apply (T (TComp l0)); simpl; auto.
  Qed.

  Lemma src_evidences_full e (src : rst) (l : list nat) : env_ok e -> forall s s', full True s ->
    ofold (fun a s =>
             do (v, s) <- lift (node_var (r_g src) a) s ;;
             match g_ev (r_g src) a with
             | None => Undef
             | Some k =>
                 do (w, s) <- lift (find_variable (r_g s) (vname v)) s ;;
                 on_g (fun g => set_evidence (r_h s) e g w k) s
             end) l s = Ret tt s' -> full True s'.
  Proof.
    intros E. induction l as [|a l IH]; cbn [ofold]; intros s s' C Q. injection Q as <-; auto.
    destruct (node_var (r_g src) a) as [v| | | |]; cbn [lift obind] in Q; try discriminate.
    destruct (g_ev (r_g src) a) as [k|]; [|discriminate].
    destruct (find_variable (r_g s) (vname v)) as [w| | | |]; cbn [lift obind] in Q; try discriminate.
    pose proof (rcall_full True e (RGraph (OSet w k)) s C eq_refl) as X. cbn [rcall careful] in X.
    assert (Y : match on_g (fun g => set_evidence (r_h s) e g w k) s with Ret _ s1 => full True s1 | _ => True end).
    { assert (Z : steady True s (RGraph (OSet w k))). { split. split; simpl; auto. simpl. intros n Hn. discriminate. }
      specialize (X Z E). unfold on_g, call, omap in *. destruct (set_evidence (r_h s) e (r_g s) w k); simpl in *; auto. }
    destruct (on_g _ s) as [[] s1|s1| | |]; cbn [obind] in *; try discriminate. eauto.
  Qed.
  (** a model just constructed *)
  Lemma crf_ctor_full e src copy c s : (forall f, built (r_h src f)) -> env_ok e -> rinv src ->
    crf_ctor e src copy = Ret c s -> coh True s /\ ctinv s /\ en (r_g s) /\ c_r c = s.
  Proof.
    intros Hb E I. unfold crf_ctor, crf_absorb. destruct (keys (gsize (r_g src)) (g_ev (r_g src))) eqn:K; [discriminate|].
    pose proof (full_empty True (r_h src) (r_top src) Hb) as F0.
    assert (B0 : blank (r_empty (r_h src) (r_top src))). { intros v. apply unobserved_none. reflexivity. }
    assert (O1 : forall f, In f (e_ord e 0 (r_const src)) -> object (r_empty (r_h src) (r_top src)) f).
    { intros f J. apply ord_In in J; auto. apply (ri_top _ I). apply (ri_in _ I). apply in_or_app; auto. }
    pose proof (calm_full True _ _ F0 (absorb_const_coh True _ (e_ord e 0 (r_const src)) copy (fl_coh _ _ F0) O1) (absorb_const_calm _ _ _)) as P1.
    destruct (absorb_const _ copy _) as [[] s1|s1| | |]; cbn [obind ofull] in *; try discriminate.
    destruct P1 as [[_ L1 U1] F1]. assert (B1 : blank s1) by (intros v; apply U1; auto).
    pose proof (absorb_clusters_full True s1 copy (tunable_clusters src) F1) as P2.
    assert (X1 : forall c f, In c (tunable_clusters src) -> In f c -> expo s1 f).
    { intros c0 f Jc Jf. eapply expo_le; [exact L1|]. assert (J : In f (concat (tunable_clusters src))) by (apply in_concat; eauto).
      split. apply (ri_top _ I). apply (ri_in _ I). apply in_or_app. right. apply (ri_tun _ I); auto. apply (ri_exp _ I). auto. }
    assert (X2 : forall c f, In c (tunable_clusters src) -> In f c -> on_hidden s1 f) by (intros c0 f _ _ v _; apply B1).
    specialize (P2 X1 X2). destruct (absorb_clusters copy (tunable_clusters src) s1) as [[] s2|s2| | |]; cbn [obind ofull] in *; try discriminate.
    destruct P2 as [_ F2].
    match goal with |- context [ofold ?f ?l s2] => destruct (ofold f l s2) as [[] s3|s3| | |] eqn:E3 end; cbn [obind] in *; try discriminate.
    apply src_evidences_full in E3; auto.
    destruct (rmap (replace_tuner s3) (r_tuners s3)) as [ts| | | |] eqn:ET; cbn [lift obind]; try discriminate.
    intros [= <- <-]. splits; auto.
    - apply coh_tuners. apply replace_clusters; auto. apply E3.
    - apply replace_tuners_ok; auto; apply E3.
    - apply (fl_en _ _ E3).
  Qed.
End CTuners.

(** {1 Histories of calls in which the stored factors can be old} *)
Section Lives.
  Context {N : num} (OK : num_ok N).
  Notation gst := (gst (N:=N)).
  Notation rst := (rst (N:=N)).
  Notation crf := (crf (N:=N)).
  Notation cop := (cop (N:=N)).
  Implicit Types s : rst.

  Definition fresh (b : bool) s : Prop := if b then weak s else coh True s.
  Lemma fresh_coh b s : coh True s -> fresh b s.
  Proof. destruct b; simpl; auto. apply coh_weak. Qed.
  Lemma fresh_weak b s : fresh b s -> weak s.
  Proof. destruct b; simpl; auto. apply coh_weak. Qed.

  Lemma one_evidence_coh e p s : coh True s -> env_ok e -> match one_evidence e p s with Ret _ s' | Thr s' => coh True s' | _ => True end.
  Proof.
    intros C E. unfold one_evidence. destruct (node_var (r_g s) (fst p)) as [v| | | |]; cbn [lift obind]; auto. apply set_ev_coh; auto.
  Qed.
  Lemma sample_step_coh e pos comb p s : coh True s -> env_ok e -> match sample_step e pos comb p s with Ret _ s' | Thr s' => coh True s' | _ => True end.
  Proof.
    intros C E. unfold sample_step. destruct (node_var (r_g s) (snd p)) as [v| | | |]; cbn [lift obind]; auto.
    destruct (vget pos (fst p)) as [i| | | |]; cbn [lift obind]; auto. destruct (vget comb i) as [x| | | |]; cbn [lift obind]; auto. apply set_ev_coh; auto.
  Qed.
  Lemma fold_coh {B} (f : B -> rst -> out rst unit) : (forall b s, coh True s -> match f b s with Ret _ s' | Thr s' => coh True s' | _ => True end) ->
    forall l s, coh True s -> match ofold f l s with Ret _ s' | Thr s' => coh True s' | _ => True end.
  Proof. intros F. induction l as [|b l IH]; cbn [ofold]; intros s C; auto. specialize (F b s C). destruct (f b s); cbn [obind]; auto. apply IH; auto. Qed.

  Lemma set_evidences_fresh b e values s : fresh b s -> env_ok e ->
    match set_evidences e values s with Ret _ s' => coh True s' | Thr s' => fresh b s' | _ => True end.
  Proof.
    intros F E. pose proof (set_evidences_weak e values s (fresh_weak b s F) E) as Q.
    assert (T : b = false -> match set_evidences e values s with Thr s' => coh True s' | _ => True end).
    { intros ->. unfold set_evidences. destruct (_ =? _); auto. pose proof (fold_coh (one_evidence e) (fun b s C => one_evidence_coh e b s C E) (combine (evidence_order e (r_g s)) values) s F) as X.
      change (fun p s => do (v, s0) <- lift (node_var (r_g s) (fst p)) s ;; on_g (fun g => set_evidence (r_h s0) e g v (snd p)) s0) with (one_evidence (N:=N) e). destruct (ofold _ _ s); auto. }
    destruct (set_evidences e values s); auto. apply Q. destruct b; simpl; auto.
  Qed.
  Lemma sample_evidences_fresh b e pos comb s : fresh b s -> env_ok e ->
    match sample_evidences e pos comb s with Ret _ s' => coh True s' | Thr s' => fresh b s' | _ => True end.
  Proof.
    intros F E. pose proof (sample_evidences_weak e pos comb s (fresh_weak b s F) E) as Q.
    assert (T : b = false -> match sample_evidences e pos comb s with Thr s' => coh True s' | _ => True end).
    { intros ->. unfold sample_evidences. pose proof (fold_coh (sample_step e pos comb) (fun b s C => sample_step_coh e pos comb b s C E) (combine (seq 0 (length (evidence_order e (r_g s)))) (evidence_order e (r_g s))) s F) as X.
      unfold sample_step in X. destruct (ofold _ _ s); auto. }
    destruct (sample_evidences e pos comb s); auto. apply Q. destruct b; simpl; auto.
  Qed.

  Lemma propagate_coh e s : coh True s -> env_ok e -> match on_g (propagate (r_h s) e SUM) s with Ret _ s' | Thr s' => coh True s' | _ => True end.
  Proof.
    intros C E. pose proof (propagate_keeps (r_h s) (g_all (r_g s)) e SUM (r_g s) E (proj1 (ch_inv _ _ C)) (proj2 (ch_inv _ _ C))) as KP.
    unfold on_g. destruct (propagate (r_h s) e SUM (r_g s)) as [[] g|g| | |]; cbn [okeeps] in *; auto; apply coh_keeps; auto.
  Qed.
  Lemma crf_betas_fresh es pos coeff samples : (forall k, env_ok (es k)) -> forall b k betas s, fresh b s ->
    match crf_betas es pos coeff k samples betas s with Ret _ s' => fresh (match samples with [] => b | _ => false end) s' | Thr s' => fresh b s' | _ => True end.
  Proof.
    intros E. induction samples as [|comb rest IH]; cbn [crf_betas]; intros b k betas s F; auto.
    pose proof (sample_evidences_fresh b (es k) pos comb s F (E k)) as Q1. destruct (sample_evidences (es k) pos comb s) as [[] s1|s1| | |]; cbn [obind]; auto.
    pose proof (propagate_coh (es k) s1 Q1 (E k)) as Q2. destruct (on_g (propagate (r_h s1) (es k) SUM) s1) as [[] s2|s2| | |]; cbn [obind]; auto; [|apply fresh_coh; auto].
    destruct (g_pool (r_g s2)); [|apply fresh_coh; auto].
    match goal with |- context [lift ?r s2] => destruct r as [bs| | | |] end; cbn [lift obind]; auto; [|apply fresh_coh; auto].
    specialize (IH false (S k) bs s2 Q2). destruct (crf_betas es pos coeff (S k) rest bs s2); auto.
    destruct rest; auto. apply fresh_coh; auto.
  Qed.
  (** no sample is given to the gradient *)
  Lemma iter_size_samples it samples : iter_samples it = Ok samples -> iter_size it = length samples.
  Proof.
    unfold iter_samples, iter_size. destruct (ti_subset it) as [l|]; [|intros [= <-]; auto]. intros Q. apply rmap_F2 in Q. symmetry.
    clear -Q. induction Q; simpl; congruence.
  Qed.
  Lemma crf_gradient_fresh es pos it b s : (forall k, env_ok (es k)) -> fresh b s ->
    match crf_gradient es pos it s with Ret _ s' => fresh (b && (iter_size it =? 0)) s' | Thr s' => fresh b s' | _ => True end.
  Proof.
    intros E F. unfold crf_gradient. destruct (g_pool (r_g s)); auto. destruct (iter_samples it) as [samples| | | |] eqn:IS; cbn [lift obind]; auto.
    destruct (rmap _ (r_tuners s)) as [al| | | |]; cbn [lift obind]; auto.
    match goal with |- context [crf_betas es pos ?c 0 samples ?l s] => pose proof (crf_betas_fresh es pos c samples E b 0 l s F) as Q; destruct (crf_betas es pos c 0 samples l s) as [bs s1|s1| | |] end; cbn [obind]; auto.
    rewrite (iter_size_samples _ _ IS). destruct samples; simpl in *. rewrite andb_true_r. auto. rewrite andb_false_r. auto.
  Qed.

  Lemma make_node_keeps H e a (g : gst) : env_ok e -> okeeps H g (make_node H e a g).
  Proof.
    intros E. unfold make_node. apply okeeps_bind. apply update_merged_keeps; auto. intros _ g1 _ _. apply okeeps_bind. apply okeeps_lift.
    intros v g2 Q _. apply okeeps_bind. apply okeeps_lift. intros p g3 _ _. destruct (nd_merged (g_node g3 a)); [|simpl; apply keeps_refl].
    apply okeeps_bind. apply okeeps_lift. intros ds g4 _ _. simpl. apply keeps_refl.
  Qed.
  Lemma make_node_list_keeps H e l : env_ok e -> forall g : gst, okeeps H g (make_node_list H e l g).
  Proof.
    intros E. induction l as [|a l IH]; cbn [make_node_list]; intros g. apply keeps_refl. apply okeeps_bind. apply make_node_keeps; auto.
    intros x g1 _ _. apply okeeps_bind. apply IH. intros xs g2 _ _. apply keeps_refl.
  Qed.
  Lemma make_samples_keeps H draw e ceil10 ctx n (g : gst) : env_ok e -> okeeps H g (make_samples H draw e ceil10 ctx n g).
  Proof.
    intros E. unfold make_samples, scoped_pool. apply okeeps_bind.
    { unfold set_pool_size. destruct (g_pool g); [|exact Logic.I]. destruct (n =? n0); [apply keeps_refl|]. destruct (n =? 0); simpl; apply keeps_pool. }
    intros _ g1 _ _. assert (K : forall (o : out gst (list (list nat))), okeeps H g1 o -> okeeps H g1 (match o with
      | Ret a s => Ret a (set_pool s (Some 1)) | Thr s => Thr (set_pool s (Some 1)) | Undef => Undef | NotNum => NotNum | NoStop => NoStop end)).
    { intros o Q. destruct o; simpl in *; auto; eapply keeps_trans; eauto; apply keeps_pool. }
    apply K. destruct (delta_burn ceil10 ctx). unfold make_nodes. apply okeeps_bind. apply make_node_list_keeps; auto.
    intros nodes g2 _ _. destruct (g_pool g2); [|apply keeps_refl]. apply okeeps_lift.
  Qed.
  Lemma samples_coh draw e ceil10 ctx n s : coh True s -> env_ok e -> match on_g (make_samples (r_h s) draw e ceil10 ctx n) s with Ret _ s' | Thr s' => coh True s' | _ => True end.
  Proof.
    intros C E. pose proof (make_samples_keeps (r_h s) draw e ceil10 ctx n (r_g s) E) as Q. unfold on_g.
    destruct (make_samples (r_h s) draw e ceil10 ctx n (r_g s)); simpl in *; auto; apply coh_keeps; auto.
  Qed.

  Lemma emplace_fresh b draw ceil10 es ctx n k ev s : (forall k, env_ok (es k)) -> fresh b s ->
    match emplace_samples draw ceil10 es ctx n k ev s with Ret _ s' => coh True s' | Thr s' => fresh b s' | _ => True end.
  Proof.
    intros E F. unfold emplace_samples. pose proof (set_evidences_fresh b (es k) ev s F (E k)) as Q. destruct (set_evidences (es k) ev s) as [[] s1|s1| | |]; cbn [obind]; auto.
    pose proof (samples_coh (draw k) (es k) ceil10 ctx n s1 Q (E k)) as X. destruct (on_g _ s1); auto. apply fresh_coh; auto.
  Qed.
  Section Loops.
    Variable body : nat -> list nat -> rst -> out rst (list (list nat)).
    Hypothesis BF : forall b k c s, fresh b s -> match body k c s with Ret _ s' => coh True s' | Thr s' => fresh b s' | _ => True end.
    Lemma all_loop_fresh cs : forall b n acc s, fresh b s -> match all_loop body n cs acc s with Ret _ s' | Thr s' => fresh b s' | _ => True end.
    Proof.
      induction cs as [|c cs IH]; cbn [all_loop]; intros b n acc s F; auto. pose proof (BF b n c s F) as Q. destruct (body n c s) as [x s1|s1| | |]; cbn [obind]; auto.
      specialize (IH false (S n) (acc ++ x) s1 Q). destruct (all_loop body (S n) cs (acc ++ x) s1); auto; apply fresh_coh; auto.
    Qed.
    Lemma some_loop_fresh delta max : forall fuel b n k r acc s, fresh b s -> match some_loop body fuel n delta max k r acc s with Ret _ s' | Thr s' => fresh b s' | _ => True end.
    Proof.
      induction fuel as [|fuel IH]; cbn [some_loop]; intros b n k r acc s F; destruct (k <? max); auto.
      destruct (range_get r) as [c| | | |]; cbn [lift obind]; auto. pose proof (BF b n c s F) as Q. destruct (body n c s) as [x s1|s1| | |]; cbn [obind]; auto.
      destruct (max <=? k + delta). apply fresh_coh; auto. destruct (range_advance delta r) as [r'| | | |]; cbn [lift obind]; auto; [|apply fresh_coh; auto].
      specialize (IH false (S n) (k + delta) r' (acc ++ x) s1 Q). destruct (some_loop body fuel (S n) delta max (k + delta) r' (acc ++ x) s1); auto; apply fresh_coh; auto.
    Qed.
  End Loops.
  Lemma train_fresh b draw floorf ceil10 e es ctx p n s : (forall k, env_ok (es k)) -> fresh b s ->
    match make_crf_train_set draw floorf ceil10 e es ctx p n s with Ret _ s' | Thr s' => fresh b s' | _ => True end.
  Proof.
    intros E F. unfold make_crf_train_set. destruct (_ || _); auto. destruct (group_ctor _) as [g| | | |]; cbn [lift obind]; auto.
    assert (BF : forall b k c s, fresh b s -> match emplace_samples draw ceil10 es ctx n k c s with Ret _ s' => coh True s' | Thr s' => fresh b s' | _ => True end) by (intros; apply emplace_fresh; auto).
    destruct (neqb n1 p).
    - destruct (range_all _) as [cs| | | |]; cbn [lift obind]; auto. apply all_loop_fresh; auto.
    - destruct (floorf _); auto. apply (some_loop_fresh _ BF). auto.
  Qed.

  (** the pool of threads *)
  Definition roen {B} (o : out rst B) : Prop := match o with Ret _ s | Thr s => en (r_g s) | _ => True end.
  Lemma roen_bind {B D} (o : out rst B) (f : B -> rst -> out rst D) : roen o -> (forall b s, en (r_g s) -> roen (f b s)) -> roen (obind o f).
  Proof. destruct o; simpl; auto. Qed.
  Lemma roen_lift {B} s (r : res B) : en (r_g s) -> roen (lift r s).
  Proof. destruct r; simpl; auto. Qed.
  Lemma roen_fold {B} (f : B -> rst -> out rst unit) l : (forall b s, en (r_g s) -> roen (f b s)) -> forall s, en (r_g s) -> roen (ofold f l s).
  Proof. intros F. induction l as [|b l IH]; simpl; intros s E; auto. apply roen_bind; auto. Qed.
  Lemma roen_on {B} s (m : gst -> out gst B) : oen (m (r_g s)) -> roen (on_g m s).
  Proof. unfold on_g. destruct (m (r_g s)); simpl; auto. Qed.
  Lemma set_evidences_en e values s : en (r_g s) -> roen (set_evidences e values s).
  Proof.
    intros E. unfold set_evidences. destruct (_ =? _); auto. apply roen_fold; auto. intros p t Et. apply roen_bind. apply roen_lift; auto.
    intros v u Eu. apply roen_on. eapply opool_en; eauto. apply set_pool_same.
  Qed.
  Lemma samples_en H draw e ceil10 ctx n (g : gst) : en g -> 1 <= n -> oen (make_samples H draw e ceil10 ctx n g).
  Proof. intros E L. unfold make_samples. apply scoped_en; auto. Qed.
  Lemma emplace_en draw ceil10 es ctx n k ev s : en (r_g s) -> 1 <= n -> roen (emplace_samples draw ceil10 es ctx n k ev s).
  Proof. intros E L. unfold emplace_samples. apply roen_bind. apply set_evidences_en; auto. intros _ t Et. apply roen_on. apply samples_en; auto. Qed.
  Lemma train_en draw floorf ceil10 e es ctx p n s : en (r_g s) -> 1 <= n -> roen (make_crf_train_set draw floorf ceil10 e es ctx p n s).
  Proof.
    intros E L. unfold make_crf_train_set. destruct (_ || _); auto. apply roen_bind. apply roen_lift; auto. intros g t Et.
    assert (A : forall cs k acc s, en (r_g s) -> roen (all_loop (emplace_samples draw ceil10 es ctx n) k cs acc s)).
    { induction cs as [|c cs IH]; cbn [all_loop]; intros k acc u Eu; auto. apply roen_bind; auto. apply emplace_en; auto. }
    assert (B : forall delta max fuel k i r acc s, en (r_g s) -> roen (some_loop (emplace_samples draw ceil10 es ctx n) fuel k delta max i r acc s)).
    { intros delta max. induction fuel as [|fuel IH]; cbn [some_loop]; intros k i r acc u Eu; destruct (i <? max); simpl; auto.
      apply roen_bind. apply roen_lift; auto. intros c w Ew. apply roen_bind. apply emplace_en; auto. intros x y Ey. destruct (_ <=? _); simpl; auto.
      apply roen_bind. apply roen_lift; auto. intros r' z Ez. apply IH; auto. }
    destruct (neqb n1 p).
    - apply roen_bind. apply roen_lift; auto. intros cs u Eu. apply A; auto.
    - destruct (floorf _); simpl; auto.
  Qed.
  Lemma scoped_ren {B} n (body : rst -> out rst B) s : en (r_g s) -> 1 <= n -> roen (scoped n body s).
  Proof.
    intros E L. unfold scoped, on_g, set_pool_size. rewrite E. destruct (Nat.eqb_spec n 0); [lia|].
    destruct (n =? 1); cbn [obind]; match goal with |- context [body ?t] => destruct (body t) end; simpl; auto; reflexivity.
  Qed.
  Lemma scoped_fresh {B} b b' n (body : rst -> out rst B) s : fresh b s -> (forall s, fresh b s -> match body s with Ret _ s' => fresh b' s' | Thr s' => fresh b s' | _ => True end) ->
    match scoped n body s with Ret _ s' => fresh b' s' | Thr s' => fresh b s' | _ => True end.
  Proof.
    intros F K. assert (P : forall b s p, fresh b s -> fresh b (set_g s (set_pool (r_g s) p))).
    { intros [] t p Ft; simpl in *. apply weak_g; auto. apply coh_keeps; auto. apply keeps_pool. }
    unfold scoped, on_g. unfold set_pool_size. destruct (g_pool (r_g s)) as [q|]; cbn [obind]; auto.
    assert (S1 : set_g s (r_g s) = s) by (destruct s; auto).
    destruct (n =? q); cbn [obind]. rewrite S1. specialize (K s F). destruct (body s); auto.
    destruct (n =? 0); cbn [obind]; auto. specialize (K _ (P b s (Some n) F)). destruct (body _); auto.
  Qed.

  (** {2 Histories} *)
  (** the weights were set since the evidences were last set: queries and samples
      are not asked before the next evidences *)
  Definition allowed (b : bool) s (op : cop) : Prop :=
    match op with
    | CQuery op => b = false /\ forall n, query_threads op = Some n -> 1 <= n
    | CSamples _ _ _ n => b = false /\ 1 <= n
    | CWeights _ | COnes => exposed s
    | CGradient _ _ n | CTrain _ _ _ _ _ _ n => 1 <= n
    | CEv _ => True
    end.
  Definition later (b : bool) (op : cop) : bool :=
    match op with
    | CWeights _ | COnes => true
    | CEv _ => false
    | CGradient _ it _ => b && (iter_size it =? 0)
    | _ => b
    end.
  Definition later_thr (b : bool) (op : cop) : bool :=
    match op with CWeights _ | COnes => true | _ => b end.
  Inductive clives : bool -> crf -> Prop :=
  | CL_field h top src e copy c s : (forall f, built (h f)) -> rreach h top any src -> env_ok e -> crf_ctor e src copy = Ret c s -> clives false c
  | CL_copy b c0 e c s : clives b c0 -> env_ok e -> crf_ctor e (c_r c0) false = Ret c s -> clives false c
  | CL_ret b c e op a s : clives b c -> cok op -> allowed b (c_r c) op -> env_ok e -> ccall e (c_pos c) op (c_r c) = Ret a s -> clives (later b op) (mkC s (c_pos c))
  | CL_thr b c e op s : clives b c -> cok op -> allowed b (c_r c) op -> env_ok e -> ccall e (c_pos c) op (c_r c) = Thr s -> clives (later_thr b op) (mkC s (c_pos c)).
  Lemma clives_creach b c : clives b c -> creach c.
  Proof. intros R. induction R; [eapply CR_field|eapply CR_copy|eapply CR_ret|eapply CR_thr]; eauto. Qed.

  Record cfull (b : bool) s : Prop := { cf_fresh : fresh b s; cf_tin : ctinv s; cf_en : en (r_g s) }.

  Lemma query_coh e op s : coh True s -> crf_query op = true -> env_ok e -> match on_g (call (r_h s) e op) s with Ret _ s' | Thr s' => coh True s' | _ => True end.
  Proof.
    intros C Q E. pose proof (rcall_coh True e (RGraph op) s C) as X. cbn [rcall] in X. apply X; auto.
    destruct op; try discriminate; simpl; auto. destruct op; try discriminate; simpl; auto; split; auto.
  Qed.
  Lemma ccall_fresh b e pos op s : fresh b s -> cok op -> allowed b s op -> env_ok e ->
    match ccall e pos op s with Ret _ s' => fresh (later b op) s' | Thr s' => fresh (later_thr b op) s' | _ => True end.
  Proof.
    intros F K AL E.
    assert (M : forall b b' B (f : B -> canswer) (o : out rst B), match o with Ret _ s' => fresh b s' | Thr s' => fresh b' s' | _ => True end ->
      match cmapo f o with Ret _ s' => fresh b s' | Thr s' => fresh b' s' | _ => True end) by (intros ? ? B f []; simpl; auto).
    destruct op; cbn [ccall cok allowed later later_thr] in *; apply M.
    - apply set_evidences_fresh; auto.
    - destruct AL as [-> _]. pose proof (query_coh e op s F K E) as Q. destruct (on_g _ s); auto.
    - pose proof (set_weights_weak ws s (fresh_weak b s F) AL) as Q. destruct (set_weights ws s); auto.
    - pose proof (set_all_ones_weak s (fresh_weak b s F) AL) as Q. destruct (set_all_ones s); auto.
    - apply scoped_fresh; auto. intros t Ft. apply crf_gradient_fresh; auto.
    - destruct AL as [-> _]. pose proof (samples_coh draw e ceil10 ctx threads s F E) as Q. destruct (on_g _ s); auto.
    - pose proof (train_fresh b draw floorf ceil10 e es ctx percentage threads s K F) as Q. destruct (make_crf_train_set _ _ _ _ _ _ _ _ s); auto.
  Qed.
  Lemma ccall_en b e pos op s : en (r_g s) -> allowed b s op -> roen (ccall e pos op s).
  Proof.
    intros F AL.
    assert (M : forall B (f : B -> canswer) (o : out rst B), roen o -> roen (cmapo f o)) by (intros B f []; simpl; auto).
    assert (CA : forall B (o : out rst B), ocalm s o -> roen o) by (intros B []; simpl; auto; intros [_ X]; auto).
    destruct op; cbn [ccall allowed] in *; apply M.
    - apply set_evidences_en; auto.
    - apply roen_on. apply call_en; auto. apply AL.
    - apply CA. apply set_weights_calm.
    - apply CA. apply set_ones_calm.
    - apply scoped_ren; auto.
    - apply roen_on. apply samples_en; auto. apply AL.
    - apply train_en; auto.
  Qed.
  Theorem clives_full b c : clives b c -> cfull b (c_r c).
  Proof.
    intros R. induction R as [h top src e copy c s Hb R E Q|b c0 e c s R IH E Q|b c e op a s R IH K AL E Q|b c e op s R IH K AL E Q].
    - pose proof (rreach_inv h top any src Hb R) as I. apply (crf_ctor_full) in Q as (C & T & EN & ->); auto. constructor; auto. apply I.
    - pose proof (ci_r _ (creach_inv c0 (clives_creach b c0 R))) as I. apply (crf_ctor_full) in Q as (C & T & EN & ->); auto. constructor; auto. apply I.
    - pose proof (creach_inv c (clives_creach b c R)) as I. destruct IH as [F T EN]. pose proof (ccall_fresh b e (c_pos c) op (c_r c) F K AL E) as X.
      pose proof (ccall_cst e (c_pos c) op (c_r c) I K E) as Y. pose proof (ccall_en b e (c_pos c) op (c_r c) EN AL) as Z. rewrite Q in *.
      constructor; auto. cbn [c_r]. eapply ctinv_frozen. apply Y. auto.
    - pose proof (creach_inv c (clives_creach b c R)) as I. destruct IH as [F T EN]. pose proof (ccall_fresh b e (c_pos c) op (c_r c) F K AL E) as X.
      pose proof (ccall_cst e (c_pos c) op (c_r c) I K E) as Y. pose proof (ccall_en b e (c_pos c) op (c_r c) EN AL) as Z. rewrite Q in *.
      constructor; auto. cbn [c_r]. eapply ctinv_frozen. apply Y. auto.
  Qed.
End Lives.
