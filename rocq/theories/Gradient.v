(** The gradient of the weights *)
From Coq Require Import String List Arith Bool Lia Permutation Relations Field.
From Verif Require Import Res Num Categoric Combs Func FuncProofs GroupProofs FactorProofs FactorApi Special SpecialProofs
  Graph GraphLemmas Clusters Belief Query GraphInv EvidInv BeliefInv BigOp Tree Cycle BPStep BPRun GraphSpec Hist P_Graph BeliefSpec Sums Exact BeliefHist Queries
  Parts JointSpec Joint Train TrainHist Coherent TrainSpec.
Import ListNotations.
Open Scope nat_scope.

Lemma sumL_cons {N : num} {A} (f : A -> N) a l : sumL f (a :: l) = (f a + sumL f l)%num.
Proof. reflexivity. Qed.

Section Expect.
  Context {N : num} (OK : num_ok N).
  Add Field NFieldExp : (ok_field N OK).
  Variable H : nat -> func N.
  Notation gst := (gst (N:=N)).
  Implicit Types s : gst.

  Lemma valid_values s A x vs : core H s (g_all s) -> abs s A -> In x (all_asg (sp_vars A)) -> (forall v, In v vs -> In v (sp_vars A)) ->
    valid_comb (map vsize vs) (map (val x) vs).
  Proof.
    intros C AB Ix KN. rewrite <- (ab_vars _ _ AB) in Ix. destruct (asg_range s x Ix) as (y & -> & Ry). unfold valid_comb.
    induction vs as [|v vs IH]; simpl; constructor.
    - destruct (known_at A s v AB (KN v (or_introl eq_refl))) as [a Ha]. rewrite (val_asg H s C y a v Ha).
      rewrite <- (szn_at _ _ _ Ha). apply Ry. eapply var_at_lt; eauto.
    - apply IH. intros; apply KN; simpl; auto.
  Qed.

  (** sums over the values of some variables *)
  Lemma mass_group s A (w : asg -> N) vs (r : list nat -> N) : core H s (g_all s) -> abs s A -> (forall v, In v vs -> In v (sp_vars A)) ->
    sumL (fun l => (mass w A (takes_all vs l) * r l)%num) (all_combs (map vsize vs)) =
    sumL (fun x => if agrees A x then (w x * r (map (val x) vs))%num else n0) (all_asg (sp_vars A)).
  Proof.
    intros C AB KN. unfold mass.
    rewrite (sumL_ext _ (fun l => sumL (fun x => ((if agrees A x && takes_all vs l x then w x else n0) * r l)%num) (all_asg (sp_vars A))) (all_combs (map vsize vs))).
    2:{ intros l _. rewrite (sumL_mul_r OK). auto. }
    rewrite (sumL_swap OK). apply sumL_ext. intros x Ix.
    destruct (agrees A x) eqn:Ag; [|apply (sumL_0 OK); intros; simpl; ring].
    pose proof (valid_values s A x vs C AB Ix KN) as V.
    apply all_combs_In in V. apply in_split in V as (l1 & l2 & E). pose proof (all_combs_NoDup (map vsize vs)) as ND. rewrite E in ND. rewrite E.
    rewrite (sumL_app OK), sumL_cons. destruct (NoDup_remove _ _ _ ND) as [_ NI]. rewrite in_app_iff in NI.
    assert (Z : forall l, (forall z, In z l -> z <> map (val x) vs) -> sumL (fun a => ((if true && takes_all vs a x then w x else n0) * r a)%num) l = (n0 : N)).
    { intros l Hl. apply (sumL_0 OK). intros z Iz. simpl. unfold takes_all. destruct (list_eq_dec Nat.eq_dec (map (val x) vs) z) as [Q|Q]. exfalso; apply (Hl z); auto. ring. }
    rewrite (Z l1) by (intros z Iz ->; tauto). rewrite (Z l2) by (intros z Iz ->; tauto). unfold takes_all. simpl.
    destruct (list_eq_dec Nat.eq_dec (map (val x) vs) (map (val x) vs)); [|congruence]. ring.
  Qed.
  Lemma mass_all s A (w : asg -> N) vs : core H s (g_all s) -> abs s A -> (forall v, In v vs -> In v (sp_vars A)) ->
    sumL (fun l => mass w A (takes_all vs l)) (all_combs (map vsize vs)) = mass w A (fun _ => true).
  Proof.
    intros C AB KN. pose proof (mass_group s A w vs (fun _ => n1) C AB KN) as Q.
    rewrite (sumL_ext _ (fun l => mass w A (takes_all vs l)) (all_combs (map vsize vs))) in Q by (intros; ring).
    rewrite Q. unfold mass. apply sumL_ext. intros x _. destruct (agrees A x); simpl; ring.
  Qed.
  Lemma takes_one (v : var) j x : takes_all [v] [j] x = takes v j x.
  Proof.
    unfold takes_all, takes. cbn [map]. destruct (list_eq_dec Nat.eq_dec [val x v] [j]) as [Q|Q].
    injection Q as ->. rewrite Nat.eqb_refl. auto. symmetry. apply Nat.eqb_neq. congruence.
  Qed.

  Lemma dot_ok f (p : list nat -> N) : wf_func f ->
    dot_product f (map p (all_combs (fsizes f))) = Ok (sumL (fun l => (p l * fimg f l)%num) (all_combs (fsizes f))).
  Proof.
    intros W. unfold dot_product. rewrite f_each_ok by auto. cbn [rbind].
    assert (G : forall l d, dot_loop (map (fun c => (c, tr false f (fimg f c))) l) (map p l) d = Ok (d + sumL (fun l => p l * fimg f l) l)%num).
    { induction l as [|c l IH]; intros d; cbn [map dot_loop]. f_equal. unfold sumL; simpl. ring. rewrite IH, sumL_cons. f_equal. simpl tr. ring. }
    rewrite G. f_equal. ring.
  Qed.
End Expect.

Lemma permute_map {A B} (F : A -> B) p l : permute p (map F l) = map F (permute p l).
Proof.
  unfold permute. rewrite map_length. induction (p (seq 0 (length l))) as [|i r IH]; cbn [flat_map]; auto. rewrite map_app, IH. f_equal.
  rewrite nth_error_map. destruct (nth_error l i); auto.
Qed.

Lemma seq_map_nth {T} (F : nat -> T) n i : i < n -> nth_error (map F (seq 0 n)) i = Some (F i).
Proof. intros L. rewrite nth_error_map, (nth_error_nth' (seq 0 n) 0) by (rewrite seq_length; auto). rewrite seq_nth by auto. auto. Qed.

Section Betas.
  Context {N : num} (OK : num_ok N).
  Add Field NFieldBeta : (ok_field N OK).
  Variable H : nat -> func N.
  Hypothesis HG : goods H.
  Notation gst := (gst (N:=N)).
  Implicit Types s : gst.
  Notation core := (core H).
  Notation W := (weight_swapped H).

  Lemma ready_core A k s r : ready H A k s r -> core s (g_all s) /\ abs s A.
  Proof.
    intros (_ & s0 & x & ls & PP & [K _] & _). split.
    - rewrite (kp_all _ _ _ K). eapply keeps_core; eauto. apply PP.
    - eapply keeps_abs; eauto. apply PP.
  Qed.
  Lemma good_wf f : wf_func (H f).
  Proof. apply (HG f). Qed.

  Lemma prepared_mass A s0 x ls : prepared H A s0 x ls -> (n0 < mass (W A) A (fun _ => true))%num.
  Proof.
    intros [C0 CL0 EV0 AB XR XO XP LS]. apply (sumL_pos OK).
    - intros y Iy. rewrite andb_true_r. rewrite <- (ab_vars _ _ AB) in Iy. destruct (asg_range s0 y Iy) as (z & -> & Rz). destruct (agrees A (asg_of s0 z)); [|apply (nle_refl OK)].
      apply (w_nonneg OK H HG s0 A C0 EV0 AB); auto.
    - exists (asg_of s0 x). split. rewrite <- (ab_vars _ _ AB). apply asg_in; auto. rewrite (proj2 (agrees_obs H s0 A C0 AB x) XO). simpl. auto.
  Qed.
  Lemma ready_mass A k s r : ready H A k s r -> (n0 < mass (W A) A (fun _ => true))%num.
  Proof. intros (_ & s0 & x & ls & PP & _). eapply prepared_mass; eauto. Qed.

  Theorem unary_beta_ok A e s r f a v : env_ok e -> ready H A SUM s r -> var_at s a v -> g_ev s a = None -> f_vars (H f) = [v] -> tree_around H A v ->
    unary_beta H e s f a = Ok (expected (W A) A (feature H f)).
  Proof.
    intros E R Ha Ev Fv T. destruct (ready_core A SUM s r R) as [C AB].
    destruct (ready_hidden OK H HG A SUM s r a v R Ha Ev) as (l & _ & Q & TT). destruct (TT T) as [El PL]; [discriminate|].
    unfold unary_beta. specialize (Q e E). destruct (incoming e s a) as [m| | | |]; cbn [rbind] in Q |- *; try discriminate. rewrite Q. cbn [rbind]. rewrite El.
    assert (KN : forall w, In w [v] -> In w (sp_vars A)) by (intros w [<-|[]]; rewrite <- (ab_vars _ _ AB); eapply nth_error_In; exact Ha).
    assert (FS : fsizes (H f) = [vsize v]) by (unfold fsizes, sizes_of; unfold f_vars in Fv; rewrite Fv; auto).
    set (S := sumL (fun j => total A SUM (W A) (takes v j)) (seq 0 (vsize v))) in *.
    assert (ES : S = mass (W A) A (fun _ => true)).
    { rewrite <- (mass_all OK H s A (W A) [v] C AB KN). simpl map. rewrite all_combs_1, sumL_map. apply sumL_ext. intros j _. rewrite total_sum. unfold mass. apply sumL_ext. intros x _. rewrite takes_one. auto. }
    replace (map (fun j => (total A SUM (W A) (takes v j) / S)%num) (seq 0 (vsize v)))
      with (map (fun c => (mass (W A) A (takes_all [v] c) / S)%num) (all_combs (fsizes (H f)))).
    2:{ rewrite FS, all_combs_1, map_map. apply map_ext. intros j. rewrite total_sum. f_equal. unfold mass. apply sumL_ext. intros x _. rewrite takes_one. auto. }
    rewrite (dot_ok OK) by apply good_wf. f_equal. rewrite FS.
    assert (NS : S <> n0) by (apply (nlt_neq' OK); auto).
    rewrite (sumL_ext _ (fun c => (mass (W A) A (takes_all [v] c) * fimg (H f) c / S)%num)) by (intros; field; auto).
    rewrite (sumL_div OK) by auto. change [vsize v] with (map vsize [v]). rewrite (mass_group OK H s A (W A) [v] (fimg (H f)) C AB KN). unfold expected. rewrite ES. unfold feature. rewrite Fv. auto.
  Qed.

  (** {1 Tuners of the factors between two variables} *)
  Section Binary.
    Variables (A : spec) (e : env) (s s0 : gst) (x : nat -> nat) (ls : list (list nat)) (fl : list (bool * nat)).
    Hypothesis E : env_ok e.
    Hypothesis PP : prepared H A s0 x ls.
    Hypothesis ST : st H s0 x s.
    Hypothesis DN : Forall2 (done_for H s0 SUM s) ls fl.
    Hypothesis SY : symmetric H A.
    Let C0 := pp_core _ _ _ _ _ PP.
    Let CL0 := pp_clean _ _ _ _ _ PP.
    Let AB := pp_abs _ _ _ _ _ PP.
    Let LS := pp_comp _ _ _ _ _ PP.
    Let K := proj1 ST.
    Let MG := proj2 ST.

    Variables (f a b : nat) (va vb : var).
    Hypothesis FV : f_vars (H f) = [va; vb].
    Hypothesis IF : In f (sp_facs A).
    Hypothesis Ha : var_at s0 a va.
    Hypothesis Hb : var_at s0 b vb.
    Hypothesis Ea : g_ev s0 a = None.
    Hypothesis Eb : g_ev s0 b = None.
    Hypothesis TRa : tree_around H A va.
    Hypothesis TRb : tree_around H A vb.

    Let g := f_group (H f).
    Let ll := [(a, LCl 0); (b, LCl 0)].
    Let SG : g_soup g = [va; vb] := FV.
    Lemma two_ha : hidden A va.
    Proof. apply (hidden_at s0 A AB a va Ha), hid_In. split; auto. eapply var_at_lt; eauto. Qed.
    Lemma two_hb : hidden A vb.
    Proof. apply (hidden_at s0 A AB b vb Hb), hid_In. split; auto. eapply var_at_lt; eauto. Qed.
    Lemma two_LL : Forall2 (fun v l => var_at s0 (fst l) v /\ loc_at s (fst l) (snd l)) (g_soup g) ll.
    Proof. rewrite SG. repeat constructor; simpl; auto; rewrite (kp_ev _ _ _ K); auto. Qed.
    Lemma two_Q : filter (fun a0 => negb (is_some (g_ev s a0))) (map fst ll) = [a; b].
    Proof. simpl. rewrite !(kp_ev _ _ _ K), Ea, Eb. auto. Qed.
    Lemma two_TR v : In v (g_soup g) -> hidden A v -> tree_around H A v.
    Proof. rewrite SG. intros [<-|[<-|[]]] _; auto. Qed.
    Lemma two_KN v : In v (g_soup g) -> In v (sp_vars A).
    Proof. rewrite SG. intros [<-|[<-|[]]]; [apply two_ha|apply two_hb]. Qed.
    Lemma two_edge : hidden_edge H A va vb.
    Proof. split; [apply two_ha|split; [apply two_hb|]]. exists f. split; auto. Qed.
    Lemma two_JI : joined_inside H A (g_soup g).
    Proof.
      rewrite SG. pose proof two_edge as Ed. assert (Ed' : hidden_edge H A vb va). { destruct Ed as (P1 & P2 & h & I & Q). split; [auto|split; auto]. exists h. split; auto. tauto. }
      intros v w [<-|[<-|[]]] [<-|[<-|[]]] _; try apply rt_refl; apply rt_step; (split; [assumption|split; simpl; auto]).
    Qed.
    Lemma two_OO : one_observed A (g_soup g).
    Proof.
      rewrite SG. intros v w [<-|[<-|[]]] _ O _; exfalso; unfold is_obs in O. destruct two_ha as [_ Q]; rewrite Q in O; discriminate. destruct two_hb as [_ Q]; rewrite Q in O; discriminate.
    Qed.

    (** the incoming messages of a node, but the one of a neighbour *)
    Lemma outer_ok q r v : In q (hid s0) -> var_at s0 q v ->
      exists c, (n0 < c)%num /\ outer_marginal e s q r =
        Ok (map (fun j => c * (uw H s0 q j * prodL (fun z => mval s z q j) (outer s0 [q; r] q)))%num (seq 0 (vsize v))).
    Proof.
      intros Iq Hq. unfold outer_marginal.
      destruct (mg_scaled OK H HG A s s0 x ls fl PP ST DN g two_TR ll two_LL q v Iq Hq) as [Em (Um & NNm & (c1 & Pc1 & Vm) & _)].
      rewrite Em. set (mu := mg H s q) in *.
      destruct (u_pos OK H HG A s0 x ls PP q v Iq Hq) as [Lx Px].
      set (ks := filter (fun b0 => negb (b0 =? r)) (keys (gsize s) (nd_act (g_node s q)))).
      assert (EK : ks = outer s0 [q; r] q).
      { unfold ks, outer. rewrite (nbs_eq H s s0 x ST q). apply filter_ext_in. intros z Iz. apply (nbs_In H _ s0 C0) in Iz. f_equal. unfold mem. simpl. destruct (Nat.eqb_spec z q) as [->|Na].
        - rewrite (adjb_irr H s0 _ q C0) in Iz. discriminate.
        - rewrite orb_false_r. auto. }
      assert (MS : forall z, In z ks -> exists c m, act s q z = Some c /\ c_msg c = Some m).
      { intros z Iz. rewrite EK in Iz. unfold outer in Iz. apply filter_In in Iz as [Iz _]. apply (nbs_In H _ s0 C0) in Iz.
        exact (has_msg H A s s0 x ls fl PP ST DN g two_TR ll two_LL q z Iz). }
      set (ms := map (fun z => match act s q z with Some c => match c_msg c with Some m => m | None => mu end | None => mu end) ks).
      assert (EM : map (fun z => match act s q z with Some c => c_msg c | None => None end) ks = map Some ms).
      { unfold ms. rewrite map_map. apply map_ext_in. intros z Iz. destruct (MS z Iz) as (c & m & Q1 & Q2). rewrite Q1, Q2. auto. }
      rewrite EM. change (Some mu :: map Some ms) with (map Some (mu :: ms)).
      set (pm := permute (e_ord e (gsize s)) (mu :: ms)).
      assert (EP : permute (e_ord e (gsize s)) (map Some (mu :: ms)) = map Some pm) by (unfold pm; rewrite permute_map; auto).
      rewrite EP.
      assert (PM : Permutation pm (mu :: ms)) by (unfold pm; apply permute_perm; intros l; apply E).
      assert (GM : forall m, In m ms -> unary v m /\ unary_nonneg v m /\ (n0 < uval m (x q))%num).
      { intros m Im. unfold ms in Im. apply in_map_iff in Im as (z & <- & Iz). destruct (MS z Iz) as (c & m & Q1 & Q2). rewrite Q1, Q2. eapply MG; eauto. }
      assert (GP : forall m, In m pm -> unary v m /\ unary_nonneg v m /\ (n0 < uval m (x q))%num).
      { intros m Im. apply (Permutation_in _ PM) in Im as [<-|Im]; auto. splits; auto. rewrite Vm by auto. apply ok_mul; auto. }
      destruct (merged_unaries_ok OK v pm) as (c2 & m & Pc2 & Emm & Umm & _ & _ & Vmm & (j1 & Lj1 & Ej1)).
      - apply Forall_forall. intros m Im. apply GP; auto.
      - intros Z. rewrite Z in PM. apply Permutation_nil in PM. discriminate.
      - intros m Im. apply GP; auto.
      - exists (x q). split; auto. apply (nlt_neq' OK). apply (prodL_pos OK). intros m Im. apply GP; auto.
      - rewrite Emm. cbn [rbind]. rewrite (get_probabilities_ok OK m) by apply Umm. rewrite (unary_fsizes v m Umm), all_combs_1. cbv zeta. rewrite sumL_map, map_map.
        set (G := sumL (fun j => fval m [j]) (seq 0 (vsize v))).
        assert (PG : (n0 < G)%num).
        { apply (bigL_pos OK SUM (fun j => fval m [j]) (seq 0 (vsize v)) j1).
          - intros j Ij. apply in_seq in Ij. apply Vmm. lia.
          - apply in_seq. lia.
          - change (fval m [j1]) with (uval m j1). rewrite Ej1. apply nlt_0_1; auto. }
        rewrite (proj2 (neqb_false OK _ _) (nlt_neq' OK _ _ PG)).
        exists (c2 * c1 / G)%num. split. apply (ndiv_pos OK); auto. apply ok_mul; auto.
        f_equal. apply map_ext_in. intros j Ij. apply in_seq in Ij. change (fval m [j]) with (uval m j). rewrite (proj1 (Vmm j ltac:(lia))).
        rewrite (prodL_perm OK _ _ _ PM). change (prodL (fun f => uval f j) (mu :: ms)) with (uval mu j * prodL (fun f => uval f j) ms)%num. rewrite Vm by lia.
        replace (prodL (fun f => uval f j) ms) with (prodL (fun z => mval s z q j) (outer s0 [q; r] q)). field. apply (nlt_neq' OK); auto.
        rewrite <- EK. unfold ms. rewrite prodL_map. apply prodL_ext. intros z Iz. destruct (MS z Iz) as (c & m' & Q1 & Q2). unfold mval. rewrite Q1, Q2. auto.
    Qed.

    Lemma two_act : exists c, act s0 a b = Some c /\ c_fac c = f.
    Proof.
      pose proof IF as I. rewrite <- (ab_all _ _ AB) in I. apply (co_fac _ _ _ C0) in I.
      destruct I as [(v & q & Q & _)|(va' & vb' & a' & b' & c & Q & Ha' & Hb' & D & Fc)]; unfold fvars in Q; rewrite FV in Q; [discriminate|].
      injection Q as <- <-. rewrite (at_inj H s0 C0 a' a va Ha' Ha), (at_inj H s0 C0 b' b vb Hb' Hb) in D. exists c. split; auto.
      destruct D as [D|D]; auto. rewrite (co_hh _ _ _ C0 a b Ea Eb) in D. discriminate.
    Qed.

    Theorem binary_beta_at : binary_beta H e s f a b = Ok (expected (W A) A (feature H f)).
    Proof.
      assert (Ia : In a (hid s0)) by (apply hid_In; split; auto; eapply var_at_lt; eauto).
      assert (Ib : In b (hid s0)) by (apply hid_In; split; auto; eapply var_at_lt; eauto).
      destruct (outer_ok a b va Ia Ha) as (ca & Pca & Oa). destruct (outer_ok b a vb Ib Hb) as (cb & Pcb & Ob).
      destruct two_act as (c & Ec & Fc).
      assert (Nab : a <> b) by (apply (co_act _ _ _ C0) in Ec; apply Ec).
      assert (Nv : va <> vb) by (intros ->; apply Nab; eapply (at_inj H s0 C0); eauto).
      assert (Ad : adjb s0 a b = true) by (apply adjb_eact; exists c; auto).
      set (ga := fun j => (ca * (uw H s0 a j * prodL (fun z => mval s z a j) (outer s0 [a; b] a)))%num) in *.
      set (gb := fun j => (cb * (uw H s0 b j * prodL (fun z => mval s z b j) (outer s0 [b; a] b)))%num) in *.
      assert (FS : fsizes (H f) = map vsize [va; vb]) by (unfold fsizes, sizes_of; fold g; rewrite SG; auto).
      set (pf := fun l => (fval (H f) l * ga (nth 0 l 0%nat) * gb (nth 1 l 0%nat))%num).
      assert (SHP : forall l, In l (all_combs (map vsize [va; vb])) -> exists i j, l = [i; j] /\ i < vsize va /\ j < vsize vb).
      { intros l Il. apply all_combs_In in Il. inversion Il as [|i n l1 ns Li R]; subst. inversion R as [|j m l2 ns' Lj R']; subst. inversion R'; subst. exists i, j; auto. }
      unfold binary_beta. rewrite Oa, Ob. cbn [rbind]. rewrite f_each_ok by apply good_wf. cbn [rbind]. rewrite FS.
      rewrite (Res.rmap_ok _ (fun p => pf (fst p))).
      2:{ intros p Ip. apply in_map_iff in Ip as (l & <- & Il). destruct (SHP l Il) as (i & j & -> & Li & Lj). cbn [fst snd].
          unfold vget. cbn [nth_error rbind]. rewrite (seq_map_nth ga (vsize va) i Li), (seq_map_nth gb (vsize vb) j Lj). cbn [rbind]. auto. }
      cbn [rbind]. rewrite (ok_dz N OK). rewrite map_map. cbn [fst].
      assert (KEY : exists k, (n0 < k)%num /\ forall l, In l (all_combs (map vsize [va; vb])) -> pf l = (k * mass (W A) A (takes_all [va; vb] l))%num).
      { assert (P1 : NoDup [a; b]) by (constructor; [intros [Z|[]]; auto|repeat constructor; intros []]). pose proof (Q_hid H A s s0 x ls PP ST g ll two_LL) as P2.
        pose proof (Q_joined H A s s0 x ls PP ST g two_JI ll two_LL) as P3. pose proof (Q_done H A s s0 x ls fl PP ST DN g two_TR ll two_LL) as P4.
        rewrite two_Q in P2, P3, P4.
        destruct (parts_total OK H HG s0 A C0 CL0 (pp_even _ _ _ _ _ PP) AB x (pp_range _ _ _ _ _ PP) (pp_obs _ _ _ _ _ PP) (pp_pos _ _ _ _ _ PP) ls LS
          SUM s ST (or_introl eq_refl) [a; b] P1 P2 P3 P4) as (R & k & PM & Pk & EQ).
        exists (ca * cb / k)%num. split. apply (ndiv_pos OK); auto. apply ok_mul; auto.
        intros l Il. destruct (SHP l Il) as (i & j & -> & Li & Lj).
        set (y := fun z => if z =? a then i else if z =? b then j else x_ev s0 z).
        assert (Ya : y a = i) by (unfold y; rewrite Nat.eqb_refl; auto).
        assert (Yb : y b = j) by (unfold y; rewrite Nat.eqb_refl; destruct (Nat.eqb_spec b a); auto; congruence).
        assert (YO : forall z, ~ In z [a; b] -> y z = x_ev s0 z).
        { intros z Nz. unfold y. destruct (Nat.eqb_spec z a) as [->|]; [exfalso; apply Nz; simpl; auto|]. destruct (Nat.eqb_spec z b) as [->|]; [exfalso; apply Nz; simpl; auto|auto]. }
        assert (YR : forall q, In q [a; b] -> y q < szn s0 q).
        { intros q [<-|[<-|[]]]. rewrite Ya, (szn_at _ _ _ Ha); auto. rewrite Yb, (szn_at _ _ _ Hb); auto. }
        assert (YE : obs_ok s0 y).
        { intros q m Eq. rewrite YO. apply x_ev_ok; auto. intros [<-|[<-|[]]]; congruence. }
        assert (TT : forall z, takes_all [va; vb] [i; j] (asg_of s0 z) = true <-> z a = i /\ z b = j).
        { intros z. unfold takes_all. cbn [map]. rewrite (val_asg H s0 C0 z a va Ha), (val_asg H s0 C0 z b vb Hb).
          destruct (list_eq_dec Nat.eq_dec [z a; z b] [i; j]) as [Q|Q]. injection Q as Q1 Q2. tauto. split; [discriminate|]. intros [Q1 Q2]. congruence. }
        assert (TM : mass (W A) A (takes_all [va; vb] [i; j]) = (k * locals H s0 s [a; b] [a; b] y)%num).
        { rewrite <- total_sum. rewrite (total_pick OK H s0 A C0 AB SUM (W A) (takes_all [va; vb] [i; j]) [a; b] R y); auto.
          - apply (w_nonneg OK H HG s0 A C0 (pp_even _ _ _ _ _ PP) AB).
          - intros z Tz q Iq. apply TT in Tz as [Za Zb]. destruct Iq as [<-|[<-|[]]]; congruence.
          - intros z Oz Zq. apply TT. rewrite (Zq a), (Zq b), Ya, Yb by (simpl; auto). auto. }
        rewrite TM. unfold locals, wt, edges_wt, prodL. cbn [fold_right filter]. rewrite Ad. cbn [fold_right]. rewrite Ya, Yb. unfold pf. cbn [nth]. unfold ga, gb.
        assert (PS : psi H s0 a b i j = fval (H f) [i; j]).
        { unfold psi. rewrite Ec. unfold var_at in Ha. rewrite Ha, Fc. unfold bval. rewrite FV.
          assert (VP : var_peqb va va = true) by (apply var_peqb_eq; auto). rewrite VP.
          destruct (SY f va vb) as [SZ SV]; auto using two_ha, two_hb. split; auto. symmetry. apply SV; auto. rewrite SZ; auto. }
        rewrite PS. assert (OS : outer s0 [b; a] b = outer s0 [a; b] b).
        { unfold outer. apply filter_ext. intros z. f_equal. apply eq_true_iff_eq. rewrite !mem_In. simpl. tauto. }
        rewrite OS. unfold prodL. field. apply (nlt_neq' OK); auto. }
      destruct KEY as (k & Pk & KEY). rewrite fold_left_sum by auto. rewrite sumL_map.
      assert (KN : forall w, In w [va; vb] -> In w (sp_vars A)) by (rewrite <- SG; apply two_KN).
      set (M := mass (W A) A (fun _ => true)).
      assert (SM : sumL (fun l => pf l) (all_combs (map vsize [va; vb])) = (k * M)%num).
      { unfold M. rewrite <- (mass_all OK H s0 A (W A) [va; vb] C0 AB KN), <- (sumL_mul_l OK). apply sumL_ext. auto. }
      assert (PM : (n0 < M)%num).
      { unfold M. eapply prepared_mass; eauto. }
      rewrite SM. replace (n0 + k * M)%num with (k * M)%num by ring.
      assert (NZ : (k * M)%num <> n0) by (apply (nlt_neq' OK); apply ok_mul; auto). rewrite (proj2 (neqb_false OK _ _) NZ). rewrite map_map.
      rewrite <- FS. rewrite (dot_ok OK) by apply good_wf. rewrite FS. f_equal.
      rewrite (sumL_ext _ (fun l => (mass (W A) A (takes_all [va; vb] l) * fimg (H f) l / M)%num)).
      2:{ intros l Il. rewrite (KEY l Il). field. split; apply (nlt_neq' OK); auto. }
      rewrite (sumL_div OK) by (apply (nlt_neq' OK); auto). rewrite (mass_group OK H s0 A (W A) [va; vb] (fimg (H f)) C0 AB KN). unfold expected, feature. rewrite FV. auto.
    Qed.
  End Binary.

  Theorem binary_beta_ok A e s r f a b va vb : env_ok e -> ready H A SUM s r -> symmetric H A -> f_vars (H f) = [va; vb] -> In f (sp_facs A) ->
    var_at s a va -> var_at s b vb -> g_ev s a = None -> g_ev s b = None -> tree_around H A va -> tree_around H A vb ->
    binary_beta H e s f a b = Ok (expected (W A) A (feature H f)).
  Proof.
    intros E (_ & s0 & x & ls & PP & ST & DN) SY FV IF Ha Hb Ea Eb TA TB. pose proof (proj1 ST) as K.
    unfold var_at in Ha, Hb. rewrite (kp_vars _ _ _ K) in Ha, Hb. rewrite (kp_ev _ _ _ K) in Ea, Eb.
    eapply binary_beta_at; eauto.
  Qed.

  (** the factor between the hidden variable [v] and the observed one [w] *)
  Theorem hidobs_beta_ok A e s r f a b v w (first : bool) : env_ok e -> ready H A SUM s r -> var_at s a v -> var_at s b w -> g_ev s a = None -> g_ev s b <> None ->
    f_vars (H f) = (if first then [v; w] else [w; v]) -> tree_around H A v ->
    hidobs_beta H e s f a b first = Ok (expected (W A) A (feature H f)).
  Proof.
    intros E R Ha Hb Ev Eb Fv T. destruct (ready_core A SUM s r R) as [C AB].
    destruct (ready_hidden OK H HG A SUM s r a v R Ha Ev) as (l & _ & Q & TT). destruct (TT T) as [El PL]; [discriminate|].
    unfold hidobs_beta. specialize (Q e E). destruct (incoming e s a) as [m| | | |]; cbn [rbind] in Q |- *; try discriminate. rewrite Q. cbn [rbind]. rewrite El.
    destruct (g_ev s b) as [o|] eqn:Eo; [|congruence].
    assert (KN : forall w, In w [v] -> In w (sp_vars A)) by (intros z [<-|[]]; rewrite <- (ab_vars _ _ AB); eapply nth_error_In; exact Ha).
    destruct (co_ev _ _ _ C b o Eo) as (w' & Hw' & Lo). rewrite (var_at_fun _ _ _ _ Hw' Hb) in Lo.
    set (S := sumL (fun j => total A SUM (W A) (takes v j)) (seq 0 (vsize v))) in *.
    assert (ES : S = mass (W A) A (fun _ => true)).
    { rewrite <- (mass_all OK H s A (W A) [v] C AB KN). simpl map. rewrite all_combs_1, sumL_map. apply sumL_ext. intros j _. rewrite total_sum. unfold mass. apply sumL_ext. intros x _. rewrite takes_one. auto. }
    set (p := fun j => (total A SUM (W A) (takes v j) / S)%num). set (cb := fun j => if first then [j; o] else [o; j]).
    rewrite map_length, seq_length.
    assert (FL : forall n k d, k + n <= vsize v -> rfold (fun result q => let* x := f_find (H f) (cb (fst q)) in Ok (result + snd q * x)%num)
              (combine (seq k n) (map p (seq k n))) d = Ok (d + sumL (fun j => p j * fimg (H f) (cb j)) (seq k n))%num).
    { induction n as [|n IH]; intros k d L; cbn [seq map combine rfold]. f_equal. unfold sumL. simpl. ring.
      cbn [fst snd]. rewrite f_find_ok; [|apply good_wf|].
      - cbn [rbind]. rewrite IH by lia. rewrite sumL_cons. f_equal. ring.
      - assert (FS : fsizes (H f) = map vsize (f_vars (H f))) by reflexivity. rewrite FS, Fv. unfold cb. destruct first; simpl; repeat constructor; auto; lia. }
    refine (eq_trans (FL (vsize v) 0 n0 _) _); [lia|]. f_equal. unfold p.
    assert (NS : S <> n0) by (apply (nlt_neq' OK); auto).
    rewrite (sumL_ext _ (fun j => (mass (W A) A (takes_all [v] [j]) * fimg (H f) (cb j) / S)%num)).
    2:{ intros j _. rewrite total_sum. replace (mass (W A) A (takes_all [v] [j])) with (mass (W A) A (takes v j)). field; auto. unfold mass. apply sumL_ext. intros x _. rewrite takes_one. auto. }
    rewrite (sumL_div OK) by auto.
    pose proof (mass_group OK H s A (W A) [v] (fun l => fimg (H f) (cb (nth 0 l 0))) C AB KN) as MGp. simpl map in MGp. rewrite all_combs_1, sumL_map in MGp. cbn [nth] in MGp. rewrite MGp.
    unfold expected. rewrite ES. match goal with |- (n0 + ?X / ?Y)%num = (?Z / ?Y)%num => replace X with Z; [field; rewrite <- ES; auto|] end.
    apply sumL_ext. intros x Ix. destruct (agrees A x) eqn:Ag; auto. unfold feature. rewrite Fv.
    assert (VW : val x w = o).
    { rewrite <- (ab_vars _ _ AB) in Ix. destruct (asg_range s x Ix) as (y & -> & _). rewrite (val_asg H s C y b w Hb). apply (agrees_obs H s A C AB) in Ag. apply Ag; auto. }
    unfold cb. destruct first; simpl; rewrite VW; auto.
  Qed.
End Betas.
