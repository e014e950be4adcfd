(** Histories of calls: the last propagation is up to date *)
From Coq Require Import String List Arith Bool Lia Permutation Relations.
From Verif Require Import Res Num Categoric Func FuncProofs GroupProofs FactorProofs FactorApi Special SpecialProofs
  Graph GraphLemmas Clusters Belief Query GraphInv EvidInv BeliefInv BigOp Tree Cycle BPStep BPRun GraphSpec Hist BeliefSpec Sums Exact.
Import ListNotations.
Open Scope nat_scope.

(** {1 Size of the pool} *)
Section Pool.
  Context {N : num}.
  Variable H : nat -> func N.
  Notation gst := (gst (N:=N)).
  Implicit Types s : gst.

  Definition opool {B} s (o : out gst B) : Prop :=
    match o with Ret _ s' | Thr s' => g_pool s' = g_pool s | _ => True end.
  Lemma opool_bind {B D} s (o : out gst B) (f : B -> gst -> out gst D) :
    opool s o -> (forall b s', g_pool s' = g_pool s -> opool s (f b s')) -> opool s (obind o f).
  Proof. intros P Q. destruct o; simpl in *; auto. Qed.
  Lemma opool_lift {B} s s' (r : res B) : g_pool s' = g_pool s -> opool s (lift r s').
  Proof. intros E. destruct r; simpl; auto. Qed.
  Lemma opool_fold {B} (f : B -> gst -> out gst unit) l : forall s s', g_pool s' = g_pool s ->
    (forall b s', g_pool s' = g_pool s -> opool s (f b s')) -> opool s (ofold f l s').
  Proof. induction l as [|b l IH]; simpl; intros s s' E F; auto. apply opool_bind; auto. Qed.

  Lemma pool_activate s a b f : g_pool (activate s a b f) = g_pool s.
  Proof. reflexivity. Qed.
  Lemma find_or_make_pool s s' v : g_pool s' = g_pool s -> opool s (find_or_make s' v).
  Proof.
    intros E. unfold find_or_make. destruct (locate s' v) as [[a l]|]; [|simpl; auto]. apply opool_bind. apply opool_lift; auto.
    intros w s1 E1. destruct (var_peqb v w); simpl; auto.
  Qed.
  Lemma set_dis_msg_pool s s' a b m : g_pool s' = g_pool s -> opool s (set_dis_msg s' a b m).
  Proof. intros E. unfold set_dis_msg. destruct (dis s' a b); simpl; auto. Qed.
  Lemma hybrid_pool s s' a b v f : g_pool s' = g_pool s -> opool s (hybrid_insertion H s' a b v f).
  Proof.
    intros E. unfold hybrid_insertion. apply opool_bind. apply opool_lift; auto. intros w s1 E1. apply opool_bind. apply opool_lift; auto.
    intros m s2 E2. apply opool_bind. apply set_dis_msg_pool; auto. intros _ s3 E3. simpl. auto.
  Qed.
  Lemma add_pool s f : opool s (add_distribution H s f).
  Proof.
    destruct f as [f|]; [|simpl; auto]. unfold add_distribution. destruct (mem f (g_all s)); [simpl; auto|].
    apply opool_bind; [|simpl; auto].
    assert (P1 : opool s (add_unary H (reset_belief s) f)).
    { unfold add_unary. apply opool_bind. apply opool_lift; auto. intros v s1 E1. apply opool_bind. apply find_or_make_pool; auto.
      intros [a l] s2 E2. simpl. auto. }
    assert (P2 : opool s (add_binary H (reset_belief s) f)).
    { unfold add_binary. apply opool_bind. apply opool_lift; auto. intros va s1 E1. apply opool_bind. apply opool_lift; auto. intros vb s2 E2.
      apply opool_bind. apply find_or_make_pool; auto. intros [a la] s3 E3. apply opool_bind. apply find_or_make_pool; auto. intros [b lb] s4 E4.
      destruct (is_some (act s4 a b) || is_some (dis s4 a b)); [simpl; auto|]. unfold connect. destruct la as [i|x], lb as [j|y]; try (apply hybrid_pool; auto).
      - apply opool_bind. apply opool_lift; auto. intros ci s5 E5. destruct (i =? j); [simpl; auto|]. apply opool_bind. apply opool_lift; auto.
        intros cj s6 E6. simpl. auto.
      - simpl. auto. }
    destruct (length (fvars H f)) as [|[|[|n]]]; simpl; auto.
  Qed.
  Lemma set_pool_same s e v k : opool s (set_evidence H e s v k).
  Proof.
    unfold set_evidence. destruct (vsize v <=? k); [simpl; auto|]. destruct (locate s v) as [[a l]|]; [|simpl; auto].
    apply opool_bind.
    - destruct l as [i|w]; [|simpl; auto]. apply opool_bind.
      + apply opool_fold; auto. intros b s1 E1. unfold disable_known. destruct (act s1 a b); simpl; auto.
      + intros _ s1 E1. apply opool_bind. apply opool_lift; auto. intros ci s2 E2. destruct (length (cl_nodes ci) =? 1); simpl; auto.
    - intros _ s1 E1. apply opool_bind; [|simpl; auto]. unfold send_evidence. apply opool_bind. apply opool_lift; auto. intros w s2 E2.
      apply opool_fold; auto. intros b s3 E3. destruct (dis s3 b a); [|simpl; auto]. apply opool_bind. apply opool_lift; auto. intros m s4 E4.
      apply opool_bind. apply set_dis_msg_pool; auto. intros _ s5 E5. simpl. auto.
  Qed.
  Lemma remove_pool_ s s' e v : g_pool s' = g_pool s -> opool s (remove_evidence_ e v s').
  Proof.
    intros E. unfold remove_evidence_. destruct (find_node s' v) as [a|]; [|simpl; auto]. destruct (g_ev s' a); [|simpl; auto].
    apply opool_bind; [|simpl; auto]. apply opool_fold; auto. intros b s1 E1. destruct (dis s1 a b); simpl; auto.
  Qed.
  Lemma remove_pool s e v : opool s (remove_evidence e s v).
  Proof. unfold remove_evidence. apply opool_bind. apply remove_pool_; auto. simpl; auto. Qed.
  Lemma removes_pool s e vs : opool s (remove_evidences e s vs).
  Proof.
    destruct vs as [|v vs]; [simpl; auto|]. change (opool s (do (_, s) <- ofold (remove_evidence_ e) (v :: vs) s ;; Ret tt (reset_state e s))).
    apply opool_bind. apply opool_fold; auto. intros. apply remove_pool_; auto. simpl; auto.
  Qed.
  Lemma remove_all_pool s e : opool s (remove_all_evidences e s).
  Proof.
    unfold remove_all_evidences. apply opool_bind; [|simpl; auto]. apply opool_fold; auto. intros a s' E. apply opool_bind.
    apply opool_lift; auto. intros v s1 E1. apply remove_pool_; auto.
  Qed.
End Pool.

Section Forgets.
  Context {N : num}.
  Variable H : nat -> func N.
  Hypothesis HG : solids H.
  Notation gst := (gst (N:=N)).
  Implicit Types s : gst.
  Notation answer := (answer (N:=N)).
  Definition ends (o : out gst answer) s' : Prop := o = Thr s' \/ exists a, o = Ret a s'.
  Lemma ends_omap {B} (f : B -> answer) (o : out gst B) s' : ends (omap f o) s' -> o = Thr s' \/ exists b, o = Ret b s'.
  Proof. unfold omap. destruct o; simpl; intros [Q|[z Q]]; try discriminate; [right|left]; injection Q; intros; subst; eauto. Qed.
  Lemma lift_state {B} (r : res B) s s' : (lift r s = Thr s' \/ exists b, lift r s = Ret b s') -> s' = s.
  Proof. destruct r; simpl; intros [Q|[b Q]]; try discriminate; injection Q; auto. Qed.

  Definition forgets s s' : Prop := g_last s' = None \/ s' = s \/ exists e, s' = reset_state e s.
  Lemma set_forgets s e v k s' : inv H s -> env_ok e -> (set_evidence H e s v k = Thr s' \/ exists b, set_evidence H e s v k = Ret b s') -> forgets s s'.
  Proof.
    intros [C CS] E Q. destruct (set_evidence_ok H HG s (g_all s) e v k C CS E) as [[_ Z]|(L & a & s1 & F & Z & C' & CS' & V' & E' & A' & L' & CL')]; rewrite Z in Q;
      destruct Q as [Q|[b Q]]; try discriminate; injection Q; intros; subst; unfold forgets; auto.
  Qed.
  Lemma remove_forgets s e v s' : inv H s -> env_ok e -> (remove_evidence e s v = Thr s' \/ exists b, remove_evidence e s v = Ret b s') -> forgets s s'.
  Proof.
    intros [C CS] E Q. destruct (remove_evidence_ok H s (g_all s) e v C E) as [[_ Z]|(a & k & s1 & s2 & F & Ea & Z & R & Es & C' & CS')]; rewrite Z in Q;
      destruct Q as [Q|[b Q]]; try discriminate; injection Q; intros; subst; unfold forgets; auto.
    left. apply (rm_last _ _ _ _ _ R).
  Qed.
  Lemma removes_forgets s e vs s' : inv H s -> env_ok e -> (remove_evidences e s vs = Thr s' \/ exists b, remove_evidences e s vs = Ret b s') -> forgets s s'.
  Proof.
    intros [C CS] E Q. destruct vs as [|v0 vs0].
    { simpl in Q. destruct Q as [Q|[b Q]]; try discriminate. injection Q; intros; subst. unfold forgets; auto. }
    change (remove_evidences e s (v0 :: vs0)) with (do (_, s) <- ofold (remove_evidence_ e) (v0 :: vs0) s ;; Ret tt (reset_state e s)) in Q.
    destruct (ofold_remove H (g_all s) e (v0 :: vs0) E s C) as [(ds & s1 & Z & R & F2)|(vs1 & v & vs2 & ds & s1 & _ & Z & R & F2 & D & NF)]; rewrite Z in Q; cbn [obind] in Q;
      destruct Q as [Q|[b Q]]; try discriminate; injection Q; intros; subst; unfold forgets.
    - left. destruct ds. inversion F2. apply (rm_last _ _ _ _ _ R).
    - destruct ds. right; left; auto. left. apply (rm_last _ _ _ _ _ R).
  Qed.
  Lemma remove_all_forgets s e s' : inv H s -> env_ok e -> (remove_all_evidences e s = Thr s' \/ exists b, remove_all_evidences e s = Ret b s') -> forgets s s'.
  Proof.
    intros [C CS] E Q. destruct (remove_all_ok H s (g_all s) e C E) as (s1 & Z & _ & _ & _ & _ & _ & _ & L). pose proof Z as Z'. rewrite Z in Q.
    destruct Q as [Q|[b Q]]; try discriminate; injection Q; intros; subst. destruct (keys (gsize s) (g_ev s)) eqn:K; [|left; auto].
    right. right. exists e. unfold remove_all_evidences in Z'. rewrite K in Z'.
    assert (EN : e_ord e (gsize s) [] = []).
    { destruct (e_ord e (gsize s) []) as [|a l] eqn:El; auto. exfalso. assert (I : In a (e_ord e (gsize s) [])) by (rewrite El; simpl; auto). apply ord_In in I; auto. }
    rewrite EN in Z'. simpl in Z'. injection Z'; auto.
  Qed.
  Lemma call_forgets e op s s' : inv H s -> env_ok e -> query_threads op = None -> (forall n, op <> OIters n) -> ends (call H e op s) s' ->
    forgets s s' /\ g_pool s' = g_pool s.
  Proof.
    intros I E NQ NI EN. destruct op; try discriminate; simpl in EN; try (exfalso; eapply NI; reflexivity); apply ends_omap in EN.
    - split.
      + pose proof (add_distribution_ok H HG s f I) as O. revert EN O. generalize (add_distribution H s f) as o. intros o EN O.
        unfold forgets. destruct O; destruct EN as [EN|[b EN]]; try discriminate; injection EN; intros; subst; auto.
      + pose proof (add_pool H s f) as P. destruct EN as [EN|[b EN]]; rewrite EN in P; exact P.
    - split. eapply set_forgets; eauto. pose proof (set_pool_same H s e v k) as P. destruct EN as [EN|[b EN]]; rewrite EN in P; exact P.
    - unfold set_evidence_name in EN. destruct (find_variable s n) as [v| | | |]; cbn [lift obind] in EN; try (destruct EN as [EN|[b EN]]; discriminate).
      + split. eapply set_forgets; eauto. pose proof (set_pool_same H s e v k) as P. destruct EN as [EN|[b EN]]; rewrite EN in P; exact P.
      + destruct EN as [EN|[b EN]]; try discriminate. injection EN as <-. unfold forgets. auto.
    - split. eapply remove_forgets; eauto. pose proof (remove_pool s e v) as P. destruct EN as [EN|[b EN]]; rewrite EN in P; exact P.
    - unfold remove_evidence_name in EN. destruct (find_variable s n) as [v| | | |]; cbn [lift obind] in EN; try (destruct EN as [EN|[b EN]]; discriminate).
      + split. eapply remove_forgets; eauto. pose proof (remove_pool s e v) as P. destruct EN as [EN|[b EN]]; rewrite EN in P; exact P.
      + destruct EN as [EN|[b EN]]; try discriminate. injection EN as <-. unfold forgets. auto.
    - split. eapply removes_forgets; eauto. pose proof (removes_pool s e vs) as P. destruct EN as [EN|[b EN]]; rewrite EN in P; exact P.
    - unfold remove_evidences_names in EN. destruct (rmap (find_variable s) ns) as [vs| | | |]; cbn [lift obind] in EN; try (destruct EN as [EN|[b EN]]; discriminate).
      + split. eapply removes_forgets; eauto. match type of EN with (?o = _ \/ _) => assert (P : opool s o) by apply removes_pool end.
        destruct EN as [EN|[b EN]]; rewrite EN in P; exact P.
      + destruct EN as [EN|[b EN]]; try discriminate. injection EN as <-. unfold forgets. auto.
    - split. eapply remove_all_forgets; eauto. pose proof (remove_all_pool s e) as P. destruct EN as [EN|[b EN]]; rewrite EN in P; exact P.
  Qed.

End Forgets.

Section BeliefHist.
  Context {N : num} (OK : num_ok N).
  Variable H : nat -> func N.
  Hypothesis HG : goods H.
  Notation gst := (gst (N:=N)).
  Implicit Types s : gst.
  Notation core := (core H).
  Notation W := (weight_swapped H).

  (** {1 The conditions of the specification on the nodes} *)
  Section Link.
    Variable s : gst.
    Variable A : spec.
    Hypothesis C : core s (g_all s).
    Hypothesis AB : abs s A.
    Hypothesis CL : clean s.

    Lemma hidden_at a v : var_at s a v -> (hidden A v <-> In a (hid s)).
    Proof.
      intros Ha. unfold hidden. rewrite (ev_at s A AB a v Ha), hid_In, <- (ab_vars _ _ AB). split.
      - intros [_ E]. split; auto. eapply var_at_lt; eauto.
      - intros [_ E]. split; auto. eapply nth_error_In; eauto.
    Qed.
    Lemma hidden_node v : hidden A v -> exists a, var_at s a v /\ In a (hid s).
    Proof.
      intros Hv. pose proof Hv as [I _]. rewrite <- (ab_vars _ _ AB) in I. apply In_nth_error in I as [a Ha]. exists a. split; auto.
      apply (hidden_at a v); auto.
    Qed.
    Lemma edge_at a b va vb : var_at s a va -> var_at s b vb -> (eact s a b <-> hidden_edge H A va vb).
    Proof.
      intros Ha Hb. split.
      - intros Q. destruct (CL a b Q) as [Ea Eb]. destruct Q as [c Q]. destruct (co_act _ _ _ C a b c Q) as (_ & If & va' & vb' & Ha' & Hb' & E).
        rewrite (var_at_fun _ _ _ _ Ha' Ha), (var_at_fun _ _ _ _ Hb' Hb) in E.
        split; [|split].
        + apply (hidden_at a va Ha), hid_In. split; auto. eapply var_at_lt; eauto.
        + apply (hidden_at b vb Hb), hid_In. split; auto. eapply var_at_lt; eauto.
        + exists (c_fac c). split. rewrite <- (ab_all _ _ AB). auto. exact E.
      - intros (Hva & Hvb & f & If & E). rewrite <- (ab_all _ _ AB) in If. apply (hidden_at a va Ha), hid_In in Hva as [_ Ea]. apply (hidden_at b vb Hb), hid_In in Hvb as [_ Eb].
        destruct (co_fac _ _ _ C f If) as [(v & a' & E' & _)|(wa & wb & a' & b' & c & E' & Ha' & Hb' & Hc & _)].
        + unfold fv, fvars in *. rewrite E' in E. destruct E; discriminate.
        + assert (Q : (a' = a /\ b' = b) \/ (a' = b /\ b' = a)).
          { unfold fv, fvars in *. rewrite E' in E. destruct E as [E|E]; injection E as -> ->; [left|right]; split; eapply (at_inj H s C); eauto. }
          assert (Z : eact s a' b').
          { destruct Hc as [Hc|Hc]. exists c; auto. exfalso. rewrite (co_hh _ _ _ C a' b') in Hc. discriminate. destruct Q as [[-> _]|[-> _]]; auto. destruct Q as [[_ ->]|[_ ->]]; auto. }
          destruct Q as [[-> ->]|[-> ->]]; auto. destruct Z as [d Z]. destruct (co_act_sym _ _ _ C _ _ _ Z) as (d' & Z' & _). exists d'; auto.
    Qed.
    Lemma edge_nodes v w : hidden_edge H A v w -> exists a b, var_at s a v /\ var_at s b w /\ eact s a b.
    Proof.
      intros E. pose proof E as (Hv & Hw & _). destruct (hidden_node v Hv) as (a & Ha & _). destruct (hidden_node w Hw) as (b & Hb & _).
      exists a, b. splits; auto. apply (edge_at a b v w); auto.
    Qed.
    Lemma eact_lt a b : eact s a b -> a < gsize s /\ b < gsize s.
    Proof. intros [c Q]. apply (co_act _ _ _ C) in Q. eapply link_lt; eauto. Qed.

    Lemma balanced_evened : balanced H A -> evened s.
    Proof. intros B a b c va vb Q Ha Hb. apply B. apply (edge_at a b va vb Ha Hb). exists c; auto. Qed.
    Lemma above_floored : balanced H A -> above_floor H A -> floored H s MAP.
    Proof.
      intros B F. right. intros a b i j Q Li Lj. apply adjb_eact in Q as [c Q]. destruct (CL a b (ex_intro _ c Q)) as [Ea Eb].
      destruct (co_act _ _ _ C a b c Q) as (NE & If & va & vb & Ha & Hb & E).
      rewrite (szn_at _ _ _ Ha) in Li. rewrite (szn_at _ _ _ Hb) in Lj.
      assert (SE : vsize va = vsize vb) by (eapply balanced_evened; eauto).
      rewrite (psi_val H s a b c va) by auto. rewrite (ab_all _ _ AB) in If.
      assert (Hva : hidden A va) by (apply (hidden_at a va Ha), hid_In; split; auto; eapply var_at_lt; eauto).
      assert (Hvb : hidden A vb) by (apply (hidden_at b vb Hb), hid_In; split; auto; eapply var_at_lt; eauto).
      assert (Nv : va <> vb) by (intros ->; apply NE; eapply (at_inj H s C); eauto).
      unfold bval. unfold fvars in E. destruct E as [E|E]; rewrite E.
      - rewrite var_peqb_refl. apply (F (c_fac c) va vb); auto; lia.
      - rewrite var_peqb_ne by auto. apply (F (c_fac c) vb va); auto; lia.
    Qed.

    (** chains and cycles *)
    Lemma linked_at a b va : var_at s a va -> linked (eact s) (fun z => In z (hid s)) a b -> exists vb, var_at s b vb /\ hidden_linked H A va vb.
    Proof.
      intros Ha L. revert va Ha. unfold linked in L. apply clos_rt_rt1n in L. induction L as [a|a b c (Q & _ & _) L IH]; intros va Ha.
      - exists va. split; auto. apply rt_refl.
      - destruct (eact_lt a b Q) as [_ Lb]. destruct (var_at_ex s b Lb) as [vb Hb]. destruct (IH vb Hb) as (vc & Hc & Lc). exists vc. split; auto.
        eapply rt_trans; [apply rt_step|exact Lc]. apply (edge_at a b va vb); auto.
    Qed.
    Lemma at_linked v w a : hidden_linked H A v w -> var_at s a v -> exists b, var_at s b w /\ linked (eact s) (fun z => In z (hid s)) a b.
    Proof.
      intros L. apply clos_rt_rt1n in L. revert a. induction L as [v|v w z Q L IH]; intros a Ha.
      - exists a. split; auto. apply rt_refl.
      - destruct (edge_nodes v w Q) as (a' & b & Ha' & Hb & E). rewrite (at_inj H s C a a' v Ha Ha'). destruct (IH b Hb) as (c & Hc & Lc).
        exists c. split; auto. eapply rt_trans; [apply rt_step|exact Lc]. destruct (CL a' b E) as [E1 E2]. destruct (eact_lt a' b E).
        splits; auto; apply hid_In; auto.
    Qed.

    Lemma walk_nth (E : nat -> nat -> Prop) l : walk E l <-> forall i x y, nth_error l i = Some x -> nth_error l (S i) = Some y -> E x y.
    Proof.
      induction l as [|a l IH]; simpl.
      - split; auto. intros _ i x y Q. destruct i; discriminate.
      - rewrite IH. split.
        + intros [Q1 Q2] [|i] x y Qx Qy; simpl in *. injection Qx as <-. destruct l; [discriminate|]. injection Qy as <-. auto. eapply Q2; eauto.
        + intros Q. split. destruct l as [|b l]; auto. apply (Q 0 a b); auto. intros i x y Qx Qy. apply (Q (S i) x y); auto.
    Qed.
    Lemma cycle_ring E c : cycle E c <-> ring E c.
    Proof.
      unfold cycle, ring. split; intros (L & ND & Q); (split; [auto|split; [auto|]]).
      - rewrite walk_nth in Q. intros i x y Qx Qy. assert (Li : i < length c) by (apply nth_error_Some; congruence). apply (Q i x y).
        + rewrite nth_error_app1; auto.
        + destruct (Nat.eqb_spec (S i) (length c)) as [Ei|Ei].
          * rewrite nth_error_app2 by lia. rewrite Ei, Nat.sub_diag. simpl. destruct c; [simpl in L; lia|]. simpl in *. auto.
          * rewrite nth_error_app1 by lia. auto.
      - apply walk_nth. intros i x y Qx Qy. assert (Li : S i < length (c ++ [hd 0 c])) by (apply nth_error_Some; congruence). rewrite app_length in Li. simpl in Li.
        rewrite nth_error_app1 in Qx by lia. apply (Q i x y); auto. destruct (Nat.eqb_spec (S i) (length c)) as [Ei|Ei].
        + rewrite nth_error_app2 in Qy by lia. rewrite Ei, Nat.sub_diag in Qy. simpl in Qy. destruct c; [simpl in L; lia|]. simpl in *. auto.
        + rewrite nth_error_app1 in Qy by lia. auto.
    Qed.

    Lemma map_vars (P : nat -> var -> Prop) (c : list nat) : (forall a, In a c -> exists v, P a v) -> exists l, Forall2 P c l.
    Proof.
      induction c as [|a c IH]; intros Q. exists []; auto. destruct (Q a) as [v Hv]; [simpl; auto|]. destruct IH as [l Hl]; [intros; apply Q; simpl; auto|].
      exists (v :: l). auto.
    Qed.
    Lemma Forall2_nth {X Y} (P : X -> Y -> Prop) l1 l2 : Forall2 P l1 l2 -> forall i, match nth_error l1 i, nth_error l2 i with Some x, Some y => P x y | None, None => True | _, _ => False end.
    Proof. induction 1; intros [|i]; simpl; auto. apply IHForall2. Qed.
    Lemma Forall2_len {X Y} (P : X -> Y -> Prop) l1 l2 : Forall2 P l1 l2 -> length l1 = length l2.
    Proof. induction 1; simpl; auto. Qed.
    Lemma Forall2_flip {X Y} (P : X -> Y -> Prop) l1 l2 : Forall2 P l1 l2 -> Forall2 (fun y x => P x y) l2 l1.
    Proof. induction 1; auto. Qed.
    Lemma Forall2_NoDup {X Y} (P : X -> Y -> Prop) l1 l2 : Forall2 P l1 l2 -> (forall x x' y, P x y -> P x' y -> x = x') -> NoDup l1 -> NoDup l2.
    Proof.
      induction 1 as [|x y l1 l2 Q F IH]; intros I ND; constructor; inversion ND as [|? ? NI ND']; subst; auto.
      intros J. apply NI. clear IH ND ND'. induction F as [|x' y' l1 l2 Q' F IH]; simpl in *. contradiction.
      destruct J as [->|J]. left. eapply I; eauto. right. apply IH; auto.
    Qed.
    Lemma ring_map {X Y} (E : X -> X -> Prop) (E' : Y -> Y -> Prop) (P : X -> Y -> Prop) c d : Forall2 P c d ->
      (forall x x' y, P x y -> P x' y -> x = x') -> (forall x x' y y', P x y -> P x' y' -> E x x' -> E' y y') -> ring E c -> ring E' d.
    Proof.
      intros F I HE (L & ND & Q). pose proof (Forall2_len P c d F) as EL. split; [lia|]. split. eapply Forall2_NoDup; eauto.
      intros i x y Qx Qy. rewrite <- EL in Qy. pose proof (Forall2_nth P c d F i) as Q1. pose proof (Forall2_nth P c d F (if S i =? length c then 0 else S i)) as Q2.
      rewrite Qx in Q1. rewrite Qy in Q2. destruct (nth_error c i) as [a|] eqn:Ea; [|contradiction].
      destruct (nth_error c (if S i =? length c then 0 else S i)) as [b|] eqn:Eb; [|contradiction]. eapply HE; eauto.
    Qed.

    Lemma cycle_vars c : cycle (eact s) c -> exists d, ring (hidden_edge H A) d /\ Forall2 (var_at s) c d.
    Proof.
      intros Q. apply cycle_ring in Q. pose proof Q as (L & ND & Qe).
      destruct (map_vars (var_at s) c) as [d F].
      { intros a Ia. apply In_nth_error in Ia as [i Hi]. assert (Li : i < length c) by (apply nth_error_Some; congruence).
        destruct (nth_error c (if S i =? length c then 0 else S i)) as [b|] eqn:Eb.
        - apply var_at_ex. apply (eact_lt a b). apply (Qe i); auto.
        - exfalso. apply nth_error_None in Eb. destruct (Nat.eqb_spec (S i) (length c)); lia. }
      exists d. split; auto. eapply (ring_map (eact s)); eauto. intros x x' y. apply (at_inj H s C). intros x x' y y' P1 P2 E. apply (edge_at x x'); auto.
    Qed.
    Lemma vars_cycle d : ring (hidden_edge H A) d -> exists c, cycle (eact s) c /\ Forall2 (var_at s) c d.
    Proof.
      intros Q. pose proof Q as (L & ND & Qe).
      assert (EX : exists c, Forall2 (fun v a => var_at s a v) d c).
      { clear - Qe L AB. assert (G : forall v, In v d -> exists a, var_at s a v).
        { intros v Iv. apply In_nth_error in Iv as [i Hi]. assert (Li : i < length d) by (apply nth_error_Some; congruence).
          destruct (nth_error d (if S i =? length d then 0 else S i)) as [w|] eqn:Eb.
          - pose proof (Qe i v w Hi Eb) as ([I _] & _). rewrite <- (ab_vars _ _ AB) in I. apply In_nth_error in I as [a Ha]. exists a; auto.
          - exfalso. apply nth_error_None in Eb. destruct (Nat.eqb_spec (S i) (length d)); lia. }
        clear - G. induction d as [|v d IH]. exists []; auto. destruct (G v) as [a Ha]; [simpl; auto|]. destruct IH as [c Hc]; [intros; apply G; simpl; auto|]. exists (a :: c). auto. }
      destruct EX as [c F]. exists c. split. 2: apply Forall2_flip in F; exact F.
      apply cycle_ring. apply (ring_map (hidden_edge H A) (eact s) (fun v a => var_at s a v) d c F); auto.
      - intros v v' a P1 P2. eapply var_at_fun; eauto.
      - intros v v' a a' P1 P2 E. apply (edge_at a a' v v'); auto.
    Qed.

    (** a cluster without cycles *)
    Lemma tree_at ls S a v : components (eact s) (hid s) ls -> In S ls -> In a S -> var_at s a v ->
      (tree_around H A v <-> ~ exists c, cycle (eact s) c /\ incl c S).
    Proof.
      intros LS IS Ia Ha. unfold tree_around. split; intros T (c & Q1 & Q2); apply T.
      - destruct (cycle_vars c Q1) as (d & R & F). exists d. split; auto. intros w Iw. apply In_nth_error in Iw as [i Hi].
        pose proof (Forall2_nth _ _ _ F i) as P. rewrite Hi in P. destruct (nth_error c i) as [b|] eqn:Eb; [|contradiction].
        destruct (linked_at a b v Ha) as (w' & Hb & Lw). apply (cp_conn _ _ _ LS S a b); auto. apply Q2. eapply nth_error_In; eauto.
        rewrite (var_at_fun _ _ _ _ P Hb). auto.
      - destruct (vars_cycle c Q1) as (d & R & F). exists d. split; auto. intros b Ib. apply In_nth_error in Ib as [i Hi].
        pose proof (Forall2_nth _ _ _ F i) as P. rewrite Hi in P. destruct (nth_error c i) as [w|] eqn:Eb; [|contradiction].
        destruct (at_linked v w a (Q2 w (nth_error_In _ _ Eb)) Ha) as (b' & Hb' & L). rewrite (at_inj H s C b b' w P Hb').
        clear - L Ia IS LS. unfold linked in L. apply clos_rt_rt1n in L. induction L as [x|x y z (Q & _ & Iy) L IH]; auto. apply IH. eapply (cp_closed _ _ _ LS); eauto.
    Qed.
  End Link.

  (** {1 The last propagation} *)
  Definition done_for s0 k s : list nat -> bool * nat -> Prop := fun S f => cdone H s0 k s S (fst f) /\ snd f = length S.
  Record prepared A s0 (x : nat -> nat) (ls : list (list nat)) : Prop := {
    pp_core : core s0 (g_all s0);
    pp_clean : clean s0;
    pp_even : evened s0;
    pp_abs : abs s0 A;
    pp_range : forall a, a < gsize s0 -> x a < szn s0 a;
    pp_obs : obs_ok s0 x;
    pp_pos : (n0 < W A (asg_of s0 x))%num;
    pp_comp : components (eact s0) (hid s0) ls
  }.
  Definition ready A k s r : Prop := pr_kind r = k /\
    exists s0 x ls, prepared A s0 x ls /\ st H s0 x s /\ Forall2 (done_for s0 k s) ls (pr_structs r).
  Definition calib A s : Prop := g_pool s = Some 1 /\ forall r, g_last s = Some r -> ready A (pr_kind r) s r.

  Lemma ready_ext A k s s' r : ready A k s r -> keeps H s s' -> g_node s' = g_node s -> ready A k s' r.
  Proof.
    intros (E & s0 & x & ls & P & [K MG] & F) K' EN. split; auto. exists s0, x, ls. split; auto. split.
    - split. eapply keeps_trans; eauto. intros a b c m v. unfold act. rewrite EN. apply MG.
    - eapply Forall2_imp; [|exact F]. intros S f [D L]. split; auto. eapply cdone_ext; [| |exact D].
      + intros a b _. unfold act. rewrite EN. auto.
      + intros a m. rewrite EN. eauto.
  Qed.

  (** other clusters, and another number of iterations *)
  Definition same_base s s' : Prop := g_vars s' = g_vars s /\ g_node s' = g_node s /\ g_ev s' = g_ev s /\ g_all s' = g_all s /\ g_next s' = g_next s.
  Lemma prepared_base A s0 s0' x ls : same_base s0 s0' -> prepared A s0 x ls -> prepared A s0' x ls.
  Proof.
    destruct s0 as [vs nd nx cl ev al la it po], s0' as [vs' nd' nx' cl' ev' al' la' it' po']. unfold same_base; simpl. intros (-> & -> & -> & -> & ->) [P1 P2 P3 P4 P5 P6 P7 P8].
    constructor; auto.
    - simpl in *. eapply core_same; [| | |exact P1]; auto.
    - eapply abs_same; eauto.
  Qed.
  Lemma cdone_base s0 s0' k s S tree : same_base s0 s0' -> cdone H s0 k s S tree -> cdone H s0' k s S tree.
  Proof.
    destruct s0 as [vs nd nx cl ev al la it po], s0' as [vs' nd' nx' cl' ev' al' la' it' po']. unfold same_base; simpl. intros (-> & -> & -> & -> & ->) [P1 P2 P3 P4].
    constructor; auto.
  Qed.
  Lemma merged_base s0 s0' a m : same_base s0 s0' -> merged_for H s0 a m -> merged_for H s0' a m.
  Proof.
    intros (E1 & E2 & E3 & _ & _). apply merged_for_ext. rewrite E2; auto. intros b. unfold dis. rewrite E2; auto. unfold gsize. rewrite E1, E2; auto. rewrite E1. auto.
  Qed.
  Lemma topo_base s0 s0' l ts : same_base s0 s0' -> topo_ok s0 l ts -> topo_ok s0' l ts.
  Proof. intros (E1 & E2 & _) T. eapply topo_ok_ext; [|exact T]. intros a b _. unfold act. rewrite E2. auto. Qed.

  Lemma ready_iters A k s r n : ready A k s r -> ready A k (set_iters s n) r.
  Proof.
    intros (E & s0 & x & ls & P & [K MG] & F). split; auto. exists (set_iters s0 n), x, ls.
    assert (B : same_base s0 (set_iters s0 n)) by (unfold same_base; splits; auto).
    split. eapply prepared_base; eauto. split.
    - split; [|exact MG]. destruct K as [K1 K2 K3 K4 K5 K6 K7 K8 K9 K10 K11]. constructor; auto.
      intros cl ts I Q. destruct (K11 cl ts I Q) as [Z|Z]; [left|right]; auto. eapply topo_base; eauto.
    - eapply Forall2_imp; [|exact F]. intros S f [D L]. split; auto. apply (cdone_base s0); auto.
      eapply (cdone_ext H s0 k s); [| |exact D]. auto. intros a m Q. eauto.
  Qed.
  Lemma ready_reset A k s r e : ready A k s r -> ready A k (reset_state e s) r.
  Proof.
    intros (E & s0 & x & ls & P & [K MG] & F). split; auto. exists (set_cl s0 (g_cl (reset_state e s))), x, ls.
    assert (B : same_base s0 (set_cl s0 (g_cl (reset_state e s)))) by (unfold same_base; splits; auto).
    split. eapply prepared_base; eauto. split.
    - split; [|exact MG]. destruct K as [K1 K2 K3 K4 K5 K6 K7 K8 K9 K10 K11]. constructor; auto.
      intros cl ts I Q. exfalso. simpl in I. unfold compute_clusters in I. apply in_map_iff in I as (l & <- & _). discriminate.
    - eapply Forall2_imp; [|exact F]. intros S f [D L]. split; auto. apply (cdone_base s0); auto.
      eapply (cdone_ext H s0 k s); [| |exact D]. auto. intros a m Q. eauto.
  Qed.

  Definition kept s s' : Prop := keeps H s s' /\ inv H s' /\ clean s' /\ g_pool s' = Some 1.

  Theorem check_ok A e k n s : inv H s -> abs s A -> clean s -> calib A s -> env_ok e -> 1 <= n -> balanced H A -> positive (W A) A ->
    exists s' r, check_propagation H e k n s = Ret tt s' /\ g_last s' = Some r /\ ready A k s' r /\ keeps H s s' /\ g_pool s' = Some 1.
  Proof.
    intros I AB CL [PO CA] E Ln B P. pose proof I as [C CS]. unfold check_propagation. destruct (would_need s k) eqn:Wd.
    - pose proof (balanced_evened s A C AB CL B) as EV.
      destruct (positive_node H s A C AB P) as (x & XR & XO & XP).
      destruct (positive_parts OK H HG s A C CL EV AB x XR XO XP) as (X1 & X2 & _).
      unfold scoped_pool, set_pool_size. rewrite PO.
      assert (G : forall s1 p, keeps H s s1 -> would_need s1 k = true -> g_pool s1 = Some p ->
        exists s' r, (match propagate H e k s1 with Ret a s => Ret a (set_pool s (Some 1)) | Thr s => Thr (set_pool s (Some 1)) | Undef => Undef | NotNum => NotNum | NoStop => NoStop end) = Ret tt s' /\
          g_last s' = Some r /\ ready A k s' r /\ keeps H s s' /\ g_pool s' = Some 1).
      { intros s1 p K1 W1 P1. destruct (propagate_ok OK H HG (g_all s) s C CS CL EV x X1 X2 e k s1 p E K1 W1 P1) as (r & s' & Es & El & [D1 D2 D3] & _ & _).
        rewrite Es. exists (set_pool s' (Some 1)), r. split; [auto|]. split; [auto|].
        assert (RD : ready A k s' r).
        { split; auto. exists s, x, (map cl_nodes (g_cl s)). split; [|split; auto]. constructor; auto. apply (cs_comp _ CS). }
        split; [|split; auto].
        - apply (ready_ext A k s'); auto. apply keeps_pool.
        - eapply keeps_trans; [apply D1|apply keeps_pool]. }
      destruct (Nat.eqb_spec n 1) as [->|Nn]; [|destruct (Nat.eqb_spec n 0); [lia|]]; cbn [obind].
      + apply (G s 1); auto. apply keeps_refl.
      + apply (G (set_pool s (Some n)) n); auto. apply keeps_pool.
    - unfold would_need in Wd. destruct (g_last s) as [r|] eqn:El; [|discriminate]. exists s, r. splits; auto.
      + apply negb_false_iff in Wd. destruct (CA r eq_refl) as [_ CA']. split; [|].
        * destruct (pr_kind r), k; auto; discriminate.
        * replace k with (pr_kind r). auto. destruct (pr_kind r), k; auto; discriminate.
      + apply keeps_refl.
  Qed.

  (** {1 The calls} *)
  Notation answer := (answer (N:=N)).
  (** the state after a query: the state before, or the one after the check of
      the propagation *)
  Lemma query_state e op s n s' : query_threads op = Some n -> (forall k m, op <> OPropagate k m) ->
    (forall k s1, check_propagation H e k n s <> Thr s1) ->
    ends (call H e op s) s' -> s' = s \/ exists k, check_propagation H e k n s = Ret tt s'.
  Proof.
    intros Q NP NT EN.
    assert (MQ : forall k v s', marginal_query H e k v n s = Thr s' \/ (exists b, marginal_query H e k v n s = Ret b s') -> check_propagation H e k n s = Ret tt s').
    { intros k v s1. unfold marginal_query. pose proof (NT k) as NT'. destruct (check_propagation H e k n s) as [[] s2|s2| | |]; cbn [obind].
      - destruct (locate s2 v) as [[a l]|].
        + intros M. apply lift_state in M. subst; auto.
        + intros [M|[b M]]; try discriminate. injection M; intros; subst; auto.
      - exfalso. eapply NT'; eauto.
      - intros [M|[b M]]; discriminate.
      - intros [M|[b M]]; discriminate.
      - intros [M|[b M]]; discriminate. }
    assert (MP : forall v s', get_map H e v n s = Thr s' \/ (exists b, get_map H e v n s = Ret b s') -> check_propagation H e MAP n s = Ret tt s').
    { intros v s1 M. unfold get_map in M. apply (MQ MAP v). destruct (marginal_query H e MAP v n s) as [l s2|s2| | |]; cbn [obind] in M.
      - apply lift_state in M. subst. right. eexists; reflexivity.
      - left. destruct M as [M|[b M]]; try discriminate. injection M as ->. auto.
      - destruct M as [M|[b M]]; discriminate.
      - destruct M as [M|[b M]]; discriminate.
      - destruct M as [M|[b M]]; discriminate. }
    assert (GJ : forall g s', get_joint H e g n s = Thr s' \/ (exists b, get_joint H e g n s = Ret b s') -> check_propagation H e SUM n s = Ret tt s').
    { intros g s1. unfold get_joint. pose proof (NT SUM) as NT'. destruct (check_propagation H e SUM n s) as [[] s2|s2| | |]; cbn [obind].
      - destruct (rmap _ (g_soup g)) as [l| | | |]; cbn [lift obind]; intros M.
        + apply lift_state in M. subst; auto.
        + destruct M as [M|[b M]]; try discriminate. injection M; intros; subst; auto.
        + destruct M as [M|[b M]]; discriminate.
        + destruct M as [M|[b M]]; discriminate.
        + destruct M as [M|[b M]]; discriminate.
      - exfalso. eapply NT'; eauto.
      - intros [M|[b M]]; discriminate.
      - intros [M|[b M]]; discriminate.
      - intros [M|[b M]]; discriminate. }
    assert (LB : forall X D (r : res X) (f : X -> gst -> out gst D) s', (obind (lift r s) f = Thr s' \/ exists b, obind (lift r s) f = Ret b s') ->
      s' = s \/ exists x, f x s = Thr s' \/ exists b, f x s = Ret b s').
    { intros X D r f s1 M. destruct r; cbn [lift obind] in M; [right; eauto|left|..]; destruct M as [M|[b M]]; try discriminate. injection M; auto. }
    destruct op; simpl in Q; try discriminate; injection Q as ->; simpl in EN; apply ends_omap in EN.
    - right. exists SUM. eapply MQ; eauto.
    - unfold get_marginal_name in EN. apply LB in EN as [EN|(v & EN)]; auto. right. exists SUM. eapply MQ; eauto.
    - right. exists MAP. eapply MP; eauto.
    - unfold get_map_name in EN. apply LB in EN as [EN|(v & EN)]; auto. right. exists MAP. eapply MP; eauto.
    - right. exists MAP. unfold get_hidden_map in EN. pose proof (NT MAP) as NT'. destruct (check_propagation H e MAP n s) as [[] s2|s2| | |]; cbn [obind] in EN.
      + apply lift_state in EN. subst; auto.
      + exfalso. eapply NT'; eauto.
      + destruct EN as [M|[b M]]; discriminate.
      + destruct EN as [M|[b M]]; discriminate.
      + destruct EN as [M|[b M]]; discriminate.
    - right. exists SUM. eapply GJ; eauto.
    - unfold get_joint_names in EN. apply LB in EN as [EN|(vs & EN)]; auto. apply LB in EN as [EN|(g & EN)]; auto. right. exists SUM. eapply GJ; eauto.
    - exfalso. eapply NP; reflexivity.
  Qed.

  Lemma scoped_idle e k n s : would_need s k = false -> g_pool s = Some 1 -> 1 <= n -> scoped_pool n (propagate H e k) s = Ret tt s.
  Proof.
    intros Wd PO Ln. unfold scoped_pool, set_pool_size. rewrite PO. destruct s as [vs nd nx cl ev al la it po]. simpl in PO. subst po.
    destruct (Nat.eqb_spec n 1) as [->|Nn]; [|destruct (Nat.eqb_spec n 0); [lia|]]; cbn [obind]; unfold propagate.
    - rewrite Wd. reflexivity.
    - change (would_need (set_pool (mkG vs nd nx cl ev al la it (Some 1)) (Some n)) k) with (would_need (mkG vs nd nx cl ev al la it (Some 1)) k).
      rewrite Wd. reflexivity.
  Qed.

  (** {1 The steps} *)
  Lemma calib_of A s s' r k : g_last s' = Some r -> ready A k s' r -> g_pool s' = Some 1 -> calib A s'.
  Proof. intros El R P. split; auto. intros r' El'. rewrite El in El'. injection El' as <-. pose proof R as [E _]. rewrite E. auto. Qed.
  Lemma calib_none A s : g_pool s = Some 1 -> g_last s = None -> calib A s.
  Proof. intros P L. split; auto. intros r. rewrite L. discriminate. Qed.


  (** the specification state is determined, up to the values of the function
      of the evidences *)
  Definition same_spec A A' : Prop := sp_vars A' = sp_vars A /\ sp_facs A' = sp_facs A /\ forall k, sp_ev A' k = sp_ev A k.
  Lemma abs_same_spec s A A' : abs s A -> abs s A' -> same_spec A A'.
  Proof.
    intros [A1 A2 A3 A4] [B1 B2 B3 B4]. split; [congruence|]. split; [congruence|]. intros k.
    assert (KD : forall a b : string * nat, {a = b} + {a <> b}) by (decide equality; auto using Nat.eq_dec, string_dec).
    destruct (in_dec KD k (map vkey (g_vars s))) as [I|NI].
    - apply in_map_iff in I as (v & <- & I). apply In_nth_error in I as [a Ha]. rewrite <- (A2 a v Ha), <- (B2 a v Ha). auto.
    - rewrite A3, B3; auto.
  Qed.
  Lemma spec_abs s A A' : same_spec A A' -> abs s A -> abs s A'.
  Proof. intros (E1 & E2 & E3) [A1 A2 A3 A4]. constructor. congruence. intros. rewrite E3; auto. intros. rewrite E3; auto. congruence. Qed.
  Lemma spec_weight A A' x : same_spec A A' -> W A' x = W A x.
  Proof.
    intros (E1 & E2 & E3). unfold weight_swapped. rewrite E2. apply prodL_ext. intros f _.
    unfold swapped, is_obs, sp_evidence. destruct (f_vars (H f)) as [|a [|b [|]]]; auto. rewrite !E3. auto.
  Qed.
  Lemma ready_spec A A' k s r : same_spec A A' -> ready A k s r -> ready A' k s r.
  Proof.
    intros SS (E & s0 & x & ls & [P1 P2 P3 P4 P5 P6 P7 P8] & S0 & F). split; auto. exists s0, x, ls. split; auto.
    constructor; auto. eapply spec_abs; eauto. rewrite (spec_weight A A'); auto.
  Qed.

  Theorem call_calib A e op s s' : inv H s -> abs s A -> clean s -> calib A s -> env_ok e -> proper_use H A op ->
    ends (call H e op s) s' -> calib (sp_next (fvars H) A op) s'.
  Proof.
    intros I AB CL CA E (G1 & G2 & G3) EN. pose proof (call_refines H HG s A e op I AB E G1) as CR.
    destruct (query_threads op) as [n|] eqn:Qt.
    - unfold sound_query in G3. rewrite Qt in G3. destruct G3 as (Ln & B & P).
      assert (SS : sp_next (fvars H) A op = A) by (unfold sp_next; destruct op; try discriminate; reflexivity). rewrite SS.
      assert (CK : forall k s1, check_propagation H e k n s <> Thr s1).
      { intros k s1. destruct (check_ok A e k n s I AB CL CA E Ln B P) as (s2 & r & Z & _). rewrite Z. discriminate. }
      assert (CC : forall k s', check_propagation H e k n s = Ret tt s' -> calib A s').
      { intros k s1 Q. destruct (check_ok A e k n s I AB CL CA E Ln B P) as (s2 & r & Z & El & R & K & PO). rewrite Q in Z. injection Z as ->.
        eapply calib_of; eauto. }
      destruct op; try discriminate Qt; try (destruct (query_state e _ s n s' Qt ltac:(intros; discriminate) CK EN) as [->|[kd Q]]; [auto|eapply CC; eauto]).
      simpl in Qt. injection Qt as ->. simpl in EN. apply ends_omap in EN. set (kk := if sum then SUM else MAP) in *.
      specialize (CK kk). specialize (CC kk). unfold check_propagation in CK, CC. destruct (would_need s kk) eqn:Wd.
      + destruct EN as [EN|[[] EN]]; [exfalso; eapply CK; eauto|]. apply CC; auto.
      + rewrite (scoped_idle e kk n s Wd (proj1 CA) Ln) in EN. destruct EN as [EN|[b EN]]; try discriminate. injection EN; intros; subst; auto.
    - assert (DI : (exists n, op = OIters n) \/ forall n, op <> OIters n) by (destruct op; eauto; right; discriminate).
      destruct DI as [[n ->]|NI].
      + simpl in EN. destruct EN as [EN|[a EN]]; try discriminate. injection EN; intros; subst. unfold sp_next. simpl.
        destruct CA as [PO CA]. split; auto. intros r El. apply ready_iters; auto.
      + destruct (call_forgets H HG e op s s' I E Qt NI EN) as [F PO]. destruct CA as [PO' CA].
        destruct F as [F|F]. { apply calib_none; auto. congruence. }
        assert (AB' : abs s' (sp_next (fvars H) A op)).
        { unfold sp_next. destruct (sp_step (fvars H) A op) as [[t A']|].
          - destruct CR as (s2 & Q2 & I2 & AB2 & _). rewrite Q2 in EN. simpl in *. destruct t; destruct EN as [EN|[b EN]]; try discriminate; injection EN; intros; subst; auto.
          - destruct EN as [EN|[b EN]]; rewrite EN in CR; simpl in CR; eapply keeps_abs; eauto. }
        destruct F as [->|[e' ->]].
        * pose proof (abs_same_spec s A _ AB AB') as SS. split; auto. intros r El. eapply ready_spec; eauto.
        * split. simpl; auto. intros r El. simpl in El. apply ready_reset. eapply ready_spec; [|eauto].
          apply (abs_same_spec (reset_state e' s)); auto. apply abs_reset; auto.
  Qed.

  Theorem reach_calib ops s : reach H (proper_use H) ops s -> calib (sp_run (fvars H) ops) s.
  Proof.
    intros R.
    assert (G1 : forall A op, proper_use H A op -> no_failed_removal A op) by (intros A op (G & _); auto).
    assert (G2 : forall A op, proper_use H A op -> no_failed_removal A op /\ separated_removal (fvars H) A op) by (intros A op (G & G' & _); auto).
    induction R as [|ops s e op a s' R CA Gop E Q|ops s e op s' R CA Gop E Q].
    - apply calib_none; reflexivity.
    - rewrite sp_run_snoc. destruct (reach_abs H HG _ ops s G1 R) as [I AB]. pose proof (reach_clean H HG _ ops s G2 R) as CL.
      eapply call_calib; eauto. right. eauto.
    - rewrite sp_run_snoc. destruct (reach_abs H HG _ ops s G1 R) as [I AB]. pose proof (reach_clean H HG _ ops s G2 R) as CL.
      eapply call_calib; eauto. left. eauto.
  Qed.
End BeliefHist.
