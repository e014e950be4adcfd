(** Importing any document into any model: lemmas *)
From Coq Require Import Ascii String List Arith ZArith Bool Lia Permutation.
From Verif Require Import Res Num Categoric Combs Func FuncProofs GroupProofs FactorProofs FactorApi Graph GraphLemmas GraphInv GraphSpec Hist
  Belief SafeSpec Train TrainHist Coherent FieldHalt FieldSafeSpec FieldSafe IO Json Xml Halt ImportSpec.
Import ListNotations.
Open Scope nat_scope.

(** {1 Outcomes} *)
Section Reads.
  Variable U : Prop.
  (** the value read, if any, has the property; undefined behaviour only if [U] *)
  Definition rd {A} (P : A -> Prop) (r : res A) : Prop := match r with Ok a => P a | Throw => True | UB => U | _ => False end.
  Lemma rd_bind {A B} (P : A -> Prop) (Q : B -> Prop) r (f : A -> res B) : rd P r -> (forall a, r = Ok a -> P a -> rd Q (f a)) -> rd Q (rbind r f).
  Proof. destruct r; simpl; auto. Qed.
  Lemma rd_mono {A} (P Q : A -> Prop) r : rd P r -> (forall a, P a -> Q a) -> rd Q r.
  Proof. destruct r; simpl; auto. Qed.
  Lemma rd_map {A B} (P : B -> Prop) (f : A -> res B) l : (forall a, In a l -> rd P (f a)) -> rd (Forall P) (rmap f l).
  Proof.
    induction l as [|a l IH]; simpl; intros F. constructor. eapply rd_bind. apply F; auto. intros b _ Pb.
    eapply rd_bind. apply IH; auto. intros bs _ Ps. constructor; auto.
  Qed.
  Lemma rd_fold {A B} (P : A -> Prop) (f : A -> B -> res A) l : (forall a b, In b l -> P a -> rd P (f a b)) -> forall a, P a -> rd P (rfold f l a).
  Proof.
    induction l as [|b l IH]; simpl; intros F a Pa; auto. eapply rd_bind. apply F; auto. intros a' _ Pa'. apply IH; auto.
  Qed.
End Reads.

(** {1 What the calls of an import change} *)
Section Frames.
  Context {N : num}.
  Notation gst := (gst (N:=N)).
  Notation rst := (rst (N:=N)).


  Section Graph.
    Variable H : nat -> func N.
    Definition gext (P : var -> Prop) (g g' : gst) : Prop :=
      g_ev g' = g_ev g /\ exists l, g_vars g' = g_vars g ++ l /\ Forall P l.
    Lemma gext_refl P g : gext P g g.
    Proof. split; auto. exists []. rewrite app_nil_r. auto. Qed.
    Definition ogext {A} P g (o : out gst A) : Prop := match o with Ret _ g' | Thr g' => gext P g g' | _ => True end.
    Lemma ogext_bind {A B} P g (o : out gst A) (k : A -> gst -> out gst B) : ogext P g o -> (forall b t, o = Ret b t -> gext P g t -> ogext P g (k b t)) -> ogext P g (obind o k).
    Proof. destruct o; simpl; auto. Qed.
    Lemma ogext_lift {A} P g (r : res A) t : gext P g t -> ogext P g (lift r t).
    Proof. destruct r; simpl; auto. Qed.
    Lemma add_gext g f : ogext (fun v => In v (f_vars (H f))) g (add_distribution H g (Some f)).
    Proof.
      set (P := fun v => In v (f_vars (H f))). cbn [add_distribution]. destruct (mem f (g_all g)). { apply gext_refl. }
      assert (G0 : gext P g (reset_belief g)) by exact (gext_refl P g).
      assert (FM : forall v t, P v -> gext P g t -> ogext P g (find_or_make t v)).
      { intros v t Pv G. unfold find_or_make. destruct (locate t v) as [[a l]|].
        - apply ogext_bind. apply ogext_lift; auto. intros w u _ G'. destruct (var_peqb v w); auto.
        - cbn [ogext]. destruct G as [G1 (l & G2 & G3)]. split; auto. exists (l ++ [v]). cbn [g_vars]. rewrite G2, app_assoc. split; auto. apply Forall_app; auto. }
      assert (VG : forall k v, vget (fvars H f) k = Ok v -> P v).
      { intros k v Q. unfold vget in Q. destruct (nth_error (fvars H f) k) eqn:E; inversion Q; subst. apply nth_error_In in E. exact E. }
      cbn zeta. apply ogext_bind; [|intros _ t _ G; exact G].
      assert (OL : forall A (r : res A) (t : gst) b t', lift r t = Ret b t' -> r = Ok b) by (intros A r t b t'; destruct r; cbn [lift]; intros Q; inversion Q; auto).
      destruct (length (fvars H f)) as [|[|[|]]]; try exact G0.
      - unfold add_unary. apply ogext_bind. apply ogext_lift; auto. intros v t Q G. apply OL in Q. apply ogext_bind. { apply FM; auto. eapply VG; eauto. }
        intros [a l] u _ G'. exact G'.
      - unfold add_binary. apply ogext_bind. apply ogext_lift; auto. intros va t Qa G. apply OL in Qa. apply ogext_bind. apply ogext_lift; auto. intros vb u Qb G'. apply OL in Qb.
        apply ogext_bind. { apply FM; auto. eapply VG; eauto. } intros [a la] w _ G2. apply ogext_bind. { apply FM; auto. eapply VG; eauto. } intros [b lb] x _ G3.
        destruct (is_some (act x a b) || is_some (dis x a b)); [exact G3|].
        unfold connect, hybrid_insertion. destruct la, lb.
        + apply ogext_bind. apply ogext_lift; exact G3. intros ci y _ G4. destruct (_ =? _). exact G4. apply ogext_bind. apply ogext_lift; exact G4. intros cj z _ G5. exact G5.
        + apply ogext_bind. apply ogext_lift; exact G3. intros z y _ G4. apply ogext_bind. apply ogext_lift; exact G4. intros m y2 _ G5.
          apply ogext_bind. { unfold set_dis_msg. destruct (dis y2 _ _); simpl; auto. } intros ? y3 _ G6. exact G6.
        + apply ogext_bind. apply ogext_lift; exact G3. intros z y _ G4. apply ogext_bind. apply ogext_lift; exact G4. intros m y2 _ G5.
          apply ogext_bind. { unfold set_dis_msg. destruct (dis y2 _ _); simpl; auto. } intros ? y3 _ G6. exact G6.
        + exact G3.
    Qed.

    (** [setEvidence] by name *)
    Definition evs (g g' : gst) : Prop := g_ev g' = g_ev g /\ g_vars g' = g_vars g.
    Definition oevs {A} g (o : out gst A) : Prop := match o with Ret _ g' | Thr g' => evs g g' | _ => True end.
    Lemma oevs_bind {A B} g (o : out gst A) (k : A -> gst -> out gst B) : oevs g o -> (forall b t, evs g t -> oevs g (k b t)) -> oevs g (obind o k).
    Proof. destruct o; simpl; auto. Qed.
    Lemma oevs_lift {A} g (r : res A) t : evs g t -> oevs g (lift r t).
    Proof. destruct r; simpl; auto. Qed.
    Lemma oevs_fold {B} g (f : B -> gst -> out gst unit) l : (forall b t, evs g t -> oevs g (f b t)) -> forall t, evs g t -> oevs g (ofold f l t).
    Proof. intros F. induction l as [|b l IH]; simpl; intros t E; auto. apply oevs_bind; auto. Qed.
    Lemma send_evs e a k g t : evs g t -> oevs g (send_evidence H e a k t).
    Proof.
      intros E. unfold send_evidence. apply oevs_bind. apply oevs_lift; auto. intros w u E1. apply oevs_fold; auto. intros b v E2.
      destruct (dis v b a); [|exact Logic.I]. apply oevs_bind. apply oevs_lift; auto. intros m v1 E3. apply oevs_bind.
      - unfold set_dis_msg. destruct (dis v1 b a); simpl; auto.
      - intros _ v2 E4. exact E4.
    Qed.
    Definition gset (n : string) (g g' : gst) : Prop :=
      g_vars g' = g_vars g /\ forall a, (forall v, var_at g a v -> vname v <> n) -> g_ev g' a = g_ev g a.
    Lemma gset_refl n g : gset n g g.
    Proof. split; auto. Qed.
    Lemma set_gset e g n k : match set_evidence_name H e g n k with Ret _ g' | Thr g' => gset n g g' | _ => True end.
    Proof.
      unfold set_evidence_name, find_variable. destruct (find _ (g_vars g)) as [v|] eqn:F; cbn [lift obind]; [|apply gset_refl].
      apply find_some in F as [Jv En]. apply String.eqb_eq in En. unfold set_evidence. destruct (vsize v <=? k); [apply gset_refl|].
      destruct (locate g v) as [[a l]|] eqn:L; [|apply gset_refl].
      assert (AT : exists w, var_at g a w /\ vname w = n).
      { unfold locate in L. destruct (find_node g v) as [b|] eqn:FN; [|discriminate]. assert (b = a) by (destruct (g_ev g b); [|destruct (find_pos _ _)]; injection L; auto). subst b.
        apply find_pos_some in FN as (w & E & Q & _). exists w. split; auto. unfold var_veqb in Q. apply andb_true_iff in Q as [_ Q]. apply String.eqb_eq in Q. congruence. }
      destruct AT as (w & AT & NW).
      assert (K : forall u u', evs g u -> evs (set_ev u (fupd (g_ev u) a (Some k))) u' -> gset n g u').
      { intros u u' [E1 E2] [E3 E4]. cbn [g_ev g_vars set_ev] in *. split. congruence. intros b Nb. rewrite E3, fupd_ne. rewrite E1; auto. intros ->. apply (Nb w AT NW). }
      assert (K0 : forall u, evs g u -> gset n g u). { intros u [E1 E2]. split; auto. intros. rewrite E1. auto. }
      assert (S : forall u, evs g u -> match (do (_, s) <- (do (_, s) <- Ret tt (set_ev u (fupd (g_ev u) a (Some k))) ;; send_evidence H e a k s) ;; Ret tt (reset_belief s)) with Ret _ g' | Thr g' => gset n g g' | _ => True end).
      { intros u E. cbn [obind]. pose proof (send_evs e a k _ _ (conj eq_refl eq_refl : evs (set_ev u (fupd (g_ev u) a (Some k))) (set_ev u (fupd (g_ev u) a (Some k))))) as Q.
        destruct (send_evidence H e a k _) as [[] u'|u'| | |]; cbn [obind oevs] in *; try exact Logic.I. apply (K u u' E) in Q. exact Q. apply (K u u' E Q). }
      destruct l as [i|x].
      2:{ apply (S g). split; auto. }
      assert (D : oevs g (ofold (fun b (s : gst) => disable_known s a b) (e_ord e a (keys (gsize g) (nd_act (g_node g a)))) g)).
      { apply oevs_fold; [|split; auto]. intros b t E. unfold disable_known. destruct (act t a b); cbn [oevs]; auto. }
      destruct (ofold _ _ g) as [[] u|u| | |]; cbn [obind]; try exact Logic.I; [|apply K0; exact D]. cbn [oevs] in D.
      destruct (get_cl u i) as [ci| | | |]; cbn [lift obind]; try exact Logic.I; [|apply K0; exact D].
      destruct (length (cl_nodes ci) =? 1); apply S; exact D.
    Qed.
  End Graph.

  (** [B]: the objects before the import; [D]: the variables of the document; [O]:
      their names, when they have an evidence *)
  Variable B : nat.
  Variable D : var -> Prop.
  Variable O : string -> Prop.
  Record gro (s s' : rst) : Prop := {
    go_vars : exists l, g_vars (r_g s') = g_vars (r_g s) ++ l /\ Forall D l;
    go_facs : exists l, g_all (r_g s') = g_all (r_g s) ++ l /\ Forall (fun f => forall v, In v (f_vars (r_h s' f)) -> D v) l;
    go_const : exists l, r_const s' = r_const s ++ l;
    go_tun : exists l, r_tun s' = r_tun s ++ l;
    go_clusters : forall k c, nth_error (tunable_clusters s) k = Some c -> exists l, nth_error (tunable_clusters s') k = Some (c ++ l);
    go_heap : forall f, f < B -> r_h s' f = r_h s f;
    go_ev : forall a, (forall v, var_at (r_g s') a v -> ~ O (vname v)) -> g_ev (r_g s') a = g_ev (r_g s) a
  }.
  Lemma nil_ext {A} (P : A -> Prop) (x : list A) : exists l, x = x ++ l /\ Forall P l.
  Proof. exists []. rewrite app_nil_r. auto. Qed.
  Lemma nil_ext' {A} (x : list A) : exists l, x = x ++ l.
  Proof. exists []. rewrite app_nil_r. auto. Qed.
  Lemma gro_refl s : gro s s.
  Proof. constructor; auto using nil_ext, nil_ext'. intros k c Q. exists []. rewrite app_nil_r. auto. Qed.
  Lemma gro_trans s t u : rinv t -> rle t u -> gro s t -> gro t u -> gro s u.
  Proof.
    intros I L [(l1 & A1 & A2) (l2 & A3 & A4) (l3 & A5) (l4 & A6) A7 A8 A9] [(m1 & B1 & B2) (m2 & B3 & B4) (m3 & B5) (m4 & B6) B7 B8 B9]. constructor.
    - exists (l1 ++ m1). rewrite B1, A1, app_assoc. split; auto. apply Forall_app; auto.
    - exists (l2 ++ m2). rewrite B3, A3, app_assoc. split; auto. apply Forall_app; split; auto. rewrite Forall_forall in *. intros f J v Jv. apply (A4 f J v).
      unfold f_vars in *. rewrite <- (rl_vars _ _ L f); auto. apply (ri_top _ I). rewrite A3. apply in_or_app; auto.
    - exists (l3 ++ m3). rewrite B5, A5, app_assoc. auto.
    - exists (l4 ++ m4). rewrite B6, A6, app_assoc. auto.
    - intros k c Q. destruct (A7 k c Q) as [x Qx]. destruct (B7 k _ Qx) as [y Qy]. exists (x ++ y). rewrite app_assoc. auto.
    - intros f F. rewrite B8, A8; auto.
    - intros a Na. rewrite B9 by auto. apply A9. intros v V. apply Na. unfold var_at in *. rewrite B1. rewrite nth_error_app1; auto. apply nth_error_Some. congruence.
  Qed.
  Definition ogro {A} s (o : out rst A) : Prop := match o with Ret _ t | Thr t => gro s t | _ => True end.

  Lemma alloc_gro s f : B <= r_top s -> gro s (snd (alloc s f)).
  Proof.
    intros L. constructor; simpl; auto using nil_ext, nil_ext'. intros k c Q. exists []. rewrite app_nil_r. auto.
    intros k F. rewrite fupd_ne by lia. auto.
  Qed.
  Lemma on_g_gro s f : (forall v, In v (f_vars (r_h s f)) -> D v) -> ogro s (on_g (fun g => add_distribution (r_h s) g (Some f)) s).
  Proof.
    intros V. unfold on_g. pose proof (add_gext (r_h s) (r_g s) f) as Q. pose proof (add_fields (r_h s) (r_g s) (Some f)) as Q'.
    destruct (add_distribution (r_h s) (r_g s) (Some f)) as [[] g|g| | |]; cbn [ogext ogro] in *; auto.
    - destruct Q as [E1 (l & E2 & E3)], Q' as (f' & [= <-] & _ & E4 & _). constructor; cbn [r_g r_h r_const r_tun set_g]; auto using nil_ext, nil_ext'.
      + exists l. split; auto. eapply Forall_impl; [|exact E3]. exact V.
      + exists [f]. split; auto.
      + intros k c Q. exists []. rewrite app_nil_r. exact Q.
      + intros a _. rewrite E1. auto.
    - destruct Q as [E1 (l & E2 & E3)], Q' as (E4 & _). constructor; cbn [r_g r_h r_const r_tun set_g]; auto using nil_ext, nil_ext'.
      + exists l. split; auto. eapply Forall_impl; [|exact E3]. exact V.
      + rewrite E4. apply nil_ext.
      + intros k c Q. exists []. rewrite app_nil_r. exact Q.
      + intros a _. rewrite E1. auto.
  Qed.
  Lemma add_const_gro s f : rinv s -> f < r_top s -> (forall v, In v (f_vars (r_h s f)) -> D v) -> ogro s (add_const (Some f) s).
  Proof.
    intros I L V. unfold add_const. pose proof (on_g_gro s f V) as Q. pose proof (on_g_add s (Some f) I) as Q'.
    destruct (on_g _ s) as [[] s1|s1| | |]; cbn [obind ogro] in *; auto. destruct Q' as [[I1 R1] _]. { intros k [= <-]. exact L. }
    eapply gro_trans; [exact I1| |exact Q|].
    - constructor; simpl; auto; try tauto; apply nil_ext'.
    - constructor; cbn [r_g r_h r_const r_tun set_const]; auto using nil_ext, nil_ext'. exists [f]. auto. intros k c E. exists []. rewrite app_nil_r. exact E.
  Qed.
  Lemma lset_nth {A} (l : list A) i x k : i < length l -> nth_error (lset l i x) k = if k =? i then Some x else nth_error l k.
  Proof.
    revert i k. induction l as [|y l IH]; intros [|i] [|k] L; simpl in *; try lia; auto. apply IH. lia.
  Qed.
  Lemma add_tunable_gro s f share : rinv s -> expo s f -> B <= f -> (forall v, In v (f_vars (r_h s f)) -> D v) -> ogro s (add_tunable (Some f) share s).
  Proof.
    intros I X LB V. unfold add_tunable. pose proof (on_g_gro s f V) as Q. pose proof (on_g_add s (Some f) I) as Q'.
    destruct (on_g _ s) as [[] s1|s1| | |]; cbn [obind ogro] in *; auto. destruct Q' as [[I1 R1] (f' & [= <-] & NI & Ea & _ & ES)]. { intros k [= <-]. apply X. }
    assert (X1 : expo s1 f) by (eapply expo_le; eauto).
    destruct (make_tuner s1 f) as [t| | | |] eqn:ET; cbn [lift obind]; try exact Logic.I; [|exact Q].
    pose proof (make_tuner_fac _ _ _ ET) as Ef.
    assert (TR : forall u, r_g u = r_g s1 -> r_top u = r_top s1 -> (forall k, f_group (r_h u k) = f_group (r_h s1 k)) -> (forall k, f_exp (r_h s1 k) = None <-> f_exp (r_h u k) = None) ->
      gro s1 u -> gro s u).
    { intros u E1 E2 E3 E4 G. eapply gro_trans; [exact I1| |exact Q|exact G]. constructor; auto. rewrite E2; auto. rewrite E1; apply nil_ext'. rewrite E1; apply nil_ext'. }
    set (s2 := set_tun s1 (r_tun s1 ++ [f])).
    destruct share as [group|].
    2:{ cbn [ogro]. apply TR; auto; try tauto. constructor; cbn [r_g r_h r_const r_tun set_tun set_tuners s2]; auto using nil_ext, nil_ext'. exists [f]. auto.
        intros k c E. exists []. rewrite app_nil_r. unfold tunable_clusters in *. cbn [r_tuners set_tuners set_tun s2]. rewrite map_app. rewrite nth_error_app1; auto. apply nth_error_Some. congruence. }
    assert (G2 : gro s1 s2). { constructor; cbn [r_g r_h r_const r_tun set_tun s2]; auto using nil_ext, nil_ext'. exists [f]. auto. intros k c E. exists []. rewrite app_nil_r. exact E. }
    fold s2. destruct (find_tuner s2 group) as [i| | | |] eqn:EF; cbn [lift obind ogro]; try exact Logic.I; [|apply TR; auto; tauto].
    destruct (vget (r_tuners s2) i) as [old| | | |] eqn:EO; cbn [lift obind ogro]; try exact Logic.I; [|apply TR; auto; tauto].
    assert (EN : nth_error (r_tuners s1) i = Some old). { unfold vget in EO. cbn [s2 set_tun r_tuners] in EO. destruct (nth_error (r_tuners s1) i); inversion EO; auto. }
    assert (Jold : In old (r_tuners s1)) by (eapply nth_error_In; eauto).
    assert (Cold : In (map bt_fac (bases old)) (tunable_clusters s1)) by (apply in_map_iff; eauto).
    assert (LI : i < length (r_tuners s1)) by (apply nth_error_Some; congruence).
    set (new := TComp (bases old ++ [t])). set (s3 := set_tuners s2 (lset (r_tuners s2) i new)).
    assert (G3 : gro s1 s3).
    { constructor; cbn [r_g r_h r_const r_tun set_tun set_tuners s2 s3]; auto using nil_ext, nil_ext'. exists [f]. auto.
      intros k c E. unfold tunable_clusters in *. rewrite nth_error_map in *. cbn [r_tuners set_tuners set_tun s2 s3]. rewrite lset_nth by auto. destruct (Nat.eqb_spec k i).
      - subst k. rewrite EN in E. cbn [option_map] in *. injection E as <-. exists [bt_fac t]. unfold new. cbn [bases]. rewrite map_app. reflexivity.
      - exists []. rewrite app_nil_r. exact E. }
    assert (T3 : gro s s3) by (apply TR; auto; tauto).
    destruct (tuner_weight (r_h s3) new) as [w| | | |] eqn:TW; cbn [lift obind ogro]; try exact Logic.I; auto.
    destruct (bases old) as [|b0 bs] eqn:EB. { exfalso. apply (ri_ne _ I1 _ Cold). auto. }
    assert (WC : forall k, In k (map bt_fac (b0 :: bs)) -> f_exp (r_h s1 k) = Some w).
    { intros k J. unfold new in TW. cbn [app tuner_weight] in TW. unfold exp_get_weight in TW. change (r_h s3) with (r_h s1) in TW.
      destruct (f_exp (r_h s1 (bt_fac b0))) as [w0|] eqn:E0; inversion TW; subst w0. rewrite <- E0. apply (ri_eq _ I1 _ k (bt_fac b0) Cold); auto. left; auto. }
    destruct (tuner_set_weight_ok w new s3) as (h' & E & W1 & W2).
    { intros b Jb. unfold new in Jb. cbn [bases] in Jb. change (r_h s3) with (r_h s1). apply in_app_or in Jb as [Jb|[<-|[]]].
      - rewrite WC by (apply in_map; auto). discriminate.
      - rewrite Ef. apply X1. }
    rewrite E. cbn [ogro]. change (r_h s3) with (r_h s1) in W1, W2. unfold new in W1, W2. cbn [bases] in W1, W2. rewrite map_app in W1, W2. cbn [map] in W1, W2. rewrite Ef in W1, W2.
    assert (HE : forall k, k <> f -> h' k = r_h s1 k).
    { intros k NE. destruct (in_dec Nat.eq_dec k (map bt_fac (b0 :: bs))) as [J|J].
      - rewrite W1 by (apply in_or_app; auto). rewrite <- (WC k J). destruct (r_h s1 k); reflexivity.
      - apply W2. intros J'. apply in_app_or in J' as [J'|[<-|[]]]; auto. }
    assert (HF : h' f = mkFunc (f_group (r_h s1 f)) (f_info (r_h s1 f)) (f_data (r_h s1 f)) (Some w)) by (apply W1; apply in_or_app; right; left; auto).
    apply TR; auto.
    - intros k. cbn [r_h set_h]. destruct (Nat.eq_dec k f) as [->|NE]. rewrite HF; auto. rewrite HE; auto.
    - intros k. cbn [r_h set_h]. destruct (Nat.eq_dec k f) as [->|NE]. rewrite HF. cbn [f_exp]. destruct X1 as [_ X1]. split; [contradiction|discriminate]. rewrite HE; tauto.
    - destruct G3 as [A1 A2 A3 A4 A5 A6 A7]. constructor; cbn [r_g r_h r_const r_tun set_h]; auto.
      + cbn [s3 s2 set_tun set_tuners r_g]. apply nil_ext.
      + intros k F. apply HE. lia.
  Qed.
  Lemma set_name_gro e s n k : O n -> ogro s (on_g (fun g => set_evidence_name (r_h s) e g n k) s).
  Proof.
    intros On. unfold on_g. pose proof (set_gset (r_h s) e (r_g s) n k) as Q. pose proof (call_stat (r_h s) e (OSetName n k) (r_g s) eq_refl) as ST. cbn [call] in ST. unfold omap in ST.
    assert (K : forall g, gset n (r_g s) g -> g_all g = g_all (r_g s) -> gro s (set_g s g)).
    { intros g [E1 E2] E3. constructor; cbn [r_g r_h r_const r_tun set_g]; auto using nil_ext, nil_ext'. rewrite E1; apply nil_ext. rewrite E3; apply nil_ext.
      intros i c E. exists []. rewrite app_nil_r. exact E. intros a Na. apply E2. intros v V En. apply (Na v). unfold var_at in *. rewrite E1. exact V. rewrite En. exact On. }
    destruct (set_evidence_name (r_h s) e (r_g s) n k) as [[] g|g| | |]; cbn [ogro obind ostat] in *; auto; apply K; auto; apply ST.
  Qed.
End Frames.

(** {1 The import of a document that has been read} *)
Section Doc.
  Context {N : num}.
  Notation rst := (rst (N:=N)).
  Notation func := (func N).

  Variable vars : list var.
  (** what is read for a factor *)
  Definition entry (p : func * iway) : Prop :=
    built (fst p) /\ incl (f_vars (fst p)) vars /\ (snd p <> IConst -> f_exp (fst p) <> None).

  Definition run_one (tun : bool) (r : res (func * iway)) (cum : list (nat * list var)) (s : rst) : out rst (list (nat * list var)) :=
    do (p, s) <- lift r s ;;
    let (k, s) := alloc s (fst p) in
    match snd p with
    | IConst => do (_, s) <- add_const (Some k) s ;; Ret cum s
    | ITun => do (_, s) <- (if tun then add_tunable (Some k) None s else add_const (Some k) s) ;; Ret cum s
    | IShare g => if tun then Ret (cum ++ [(k, g)]) s else do (_, s) <- add_const (Some k) s ;; Ret cum s
    end.
  Fixpoint run_all (tun : bool) (l : list (res (func * iway))) (cum : list (nat * list var)) (s : rst) : out rst (list (nat * list var)) :=
    match l with
    | [] => Ret cum s
    | r :: l => do (c, s) <- run_one tun r cum s ;; run_all tun l c s
    end.

  (** outcomes *)
  Variables U NN NS : Prop.
  Definition oin {A} (I : rst -> Prop) (o : out rst A) : Prop :=
    match o with Ret _ t | Thr t => I t | Undef => U | NotNum => NN | NoStop => NS end.
  Lemma oin_bind {A C} (I : rst -> Prop) (o : out rst A) (f : A -> rst -> out rst C) : oin I o -> (forall a t, o = Ret a t -> I t -> oin I (f a t)) -> oin I (obind o f).
  Proof. destruct o; simpl; auto. Qed.
  Lemma oin_lift {A} (I : rst -> Prop) P (r : res A) t : rd U P r -> I t -> oin I (lift r t).
  Proof. destruct r; simpl; tauto. Qed.
  Lemma oin_fold {X} (I : rst -> Prop) (f : X -> rst -> out rst unit) l : (forall x t, In x l -> I t -> oin I (f x t)) -> forall t, I t -> oin I (ofold f l t).
  Proof. induction l as [|x l IH]; simpl; intros F t It; auto. apply oin_bind. apply F; auto. intros _ u _ Iu. apply IH; auto. Qed.

  (** what the calls keep *)
  Variable B : nat.
  Variable I : rst -> Prop.
  Hypothesis I_rinv : forall t, I t -> rinv t /\ B <= r_top t.
  Hypothesis I_new : forall t f, I t -> built f -> incl (f_vars f) vars -> I (snd (alloc t f)).
  Hypothesis I_const : forall t k, I t -> B <= k < r_top t -> incl (f_vars (r_h t k)) vars -> oin I (add_const (Some k) t).
  Hypothesis I_tun : forall t k sh, I t -> B <= k -> expo t k -> incl (f_vars (r_h t k)) vars -> oin I (add_tunable (Some k) sh t).

  Definition waiting (t : rst) (cum : list (nat * list var)) : Prop :=
    forall p, In p cum -> B <= fst p /\ expo t (fst p) /\ incl (f_vars (r_h t (fst p))) vars.
  Lemma waiting_le t u cum : rle t u -> waiting t cum -> waiting u cum.
  Proof.
    intros L W p J. destruct (W p J) as (A1 & A2 & A3). split; auto. split. eapply expo_le; eauto. unfold f_vars in *. rewrite (rl_vars _ _ L) by apply A2. auto.
  Qed.
  Definition oin2 (o : out rst (list (nat * list var))) : Prop := match o with Ret c t => I t /\ waiting t c | _ => oin I o end.

  Lemma run_one_in tun r cum t : rd U entry r -> I t -> waiting t cum -> oin2 (run_one tun r cum t).
  Proof.
    intros R It W. destruct r as [[f w]| | | |]; cbn [run_one rd lift obind] in *; try exact R; try contradiction; auto. destruct R as (Bf & Vf & Xf). cbn [fst snd] in *. unfold alloc.
    pose proof (I_new t f It Bf Vf) as I1. pose proof (alloc_step t f (proj1 (I_rinv t It)) Bf) as [R1 L1]. destruct (I_rinv t It) as [_ LB].
    unfold alloc in I1, R1, L1. cbn [snd] in I1, R1, L1.
    set (t1 := mkR (fupd (r_h t) (r_top t) f) (S (r_top t)) (r_g t) (r_const t) (r_tun t) (r_tuners t)) in *.
    assert (V1 : incl (f_vars (r_h t1 (r_top t))) vars). { cbn [r_h t1]. rewrite fupd_eq. auto. }
    assert (T1 : B <= r_top t < r_top t1) by (cbn [r_top t1]; lia).
    assert (X1 : w <> IConst -> expo t1 (r_top t)). { intros NE. split. apply T1. cbn [r_h t1]. rewrite fupd_eq. apply Xf. auto. }
    assert (W1 : waiting t1 cum) by (eapply waiting_le; eauto).
    assert (AC : oin2 (do (_, s) <- add_const (Some (r_top t)) t1 ;; Ret cum s)).
    { pose proof (I_const t1 (r_top t) I1 T1 V1) as Q. pose proof (add_const_step t1 (Some (r_top t)) R1) as ST.
      destruct (add_const (Some (r_top t)) t1) as [[] u|u| | |]; cbn [obind oin2 oin ostep] in *; auto. split; auto. eapply waiting_le; [|exact W1]. apply ST. intros k [= <-]. apply T1. }
    destruct w as [| |g]; auto.
    - assert (X2 : expo t1 (r_top t)) by (apply X1; discriminate). destruct tun; auto. pose proof (I_tun t1 (r_top t) None I1 (proj1 T1) X2 V1) as Q. pose proof (add_tunable_step t1 (Some (r_top t)) None R1) as ST.
      destruct (add_tunable (Some (r_top t)) None t1) as [[] u|u| | |]; cbn [obind oin2 oin ostep] in *; auto. split; auto. eapply waiting_le; [|exact W1]. apply ST. intros k [= <-]. exact X2.
    - destruct tun; auto. cbn [oin2]. split; auto. intros p J. apply in_app_or in J as [J|[<-|[]]]; auto. cbn [fst]. split. apply T1. split; auto. apply X1. discriminate.
  Qed.
  Lemma run_all_in tun l : forall cum t, Forall (rd U entry) l -> I t -> waiting t cum -> oin2 (run_all tun l cum t).
  Proof.
    induction l as [|r l IH]; intros cum t F It W; cbn [run_all]. split; auto. inversion F; subst.
    pose proof (run_one_in tun r cum t H1 It W) as Q. destruct (run_one tun r cum t) as [c u|u| | |]; cbn [obind oin2 oin] in *; auto. apply IH; auto; apply Q.
  Qed.
  Lemma shared_in cum : forall t, I t -> waiting t cum -> oin I (ofold (fun p s => add_tunable (Some (fst p)) (Some (snd p)) s) cum t).
  Proof.
    induction cum as [|p cum IH]; intros t It W; cbn [ofold]. exact It. destruct (W p (or_introl eq_refl)) as (A1 & A2 & A3).
    pose proof (I_tun t (fst p) (Some (snd p)) It A1 A2 A3) as Q. pose proof (add_tunable_step t (Some (fst p)) (Some (snd p)) (proj1 (I_rinv t It))) as ST.
    destruct (add_tunable (Some (fst p)) (Some (snd p)) t) as [[] u|u| | |]; cbn [obind oin ostep] in *; auto. apply IH; auto. eapply waiting_le. apply ST. intros k [= <-]; auto. intros q J. apply W. right; auto.
  Qed.
  Definition run_doc (e : env) (tun : bool) (pots : res (list (res (func * iway)))) (ev : list (string * nat)) (s : rst) : out rst unit :=
    do (l, s) <- lift pots s ;;
    do (cum, s) <- run_all tun l [] s ;;
    do (_, s) <- ofold (fun p s => add_tunable (Some (fst p)) (Some (snd p)) s) cum s ;;
    ofold (fun p s => on_g (fun g => set_evidence_name (r_h s) e g (fst p) (snd p)) s) (permute (e_ord e 1) ev) s.

  Variable J : rst -> Prop.
  Hypothesis I_J : forall t, I t -> J t.
  Lemma oin_weak {A} (o : out rst A) : oin I o -> oin J o.
  Proof. destruct o; simpl; auto. Qed.
  Lemma run_doc_in e tun pots ev s : (forall n k t, In n (map fst ev) -> J t -> oin J (on_g (fun g => set_evidence_name (r_h t) e g n k) t)) -> env_ok e ->
    rd U (Forall (rd U entry)) pots -> I s -> oin J (run_doc e tun pots ev s).
  Proof.
    intros SE E P Is. unfold run_doc. destruct pots as [l| | | |]; cbn [lift obind rd oin] in *; auto; try tauto.
    assert (W0 : waiting s []) by (intros p []).
    pose proof (run_all_in tun l [] s P Is W0) as Q. destruct (run_all tun l [] s) as [cum t|t| | |]; cbn [obind oin oin2] in *; auto.
    destruct Q as [It W]. pose proof (shared_in cum t It W) as Q. destruct (ofold _ cum t) as [[] u|u| | |]; cbn [obind oin] in *; auto.
    apply oin_fold; auto. intros [n k] v Jv Iv. cbn [fst snd]. apply SE; auto. apply in_map_iff. exists (n, k). split; auto. eapply Halt.permute_incl; [|exact Jv]. apply E.
  Qed.
End Doc.

(** {1 Reading} *)
Section Read.
  Context {N : num}.
  Notation func := (func N).
  Variable atof : string -> N.
  Variable U : Prop.

  Lemma rd_size t : int_text t \/ U -> rd U (fun _ => True) (read_size t).
  Proof.
    intros Q. unfold read_size, int_text in *. destruct (atoi t) eqn:E; cbn [rbind rd]; auto.
    - destruct Q; auto; congruence.
    - unfold atoi in E. destruct (_ && _)%bool in E; discriminate E.
    - unfold atoi in E. destruct (_ && _)%bool in E; discriminate E.
  Qed.
  (** the variables read *)
  Variable next : nat.
  Definition ivok (D O : string -> Prop) (st : ivars) : Prop :=
    Forall made (iv_vars st) /\ (forall v, In v (iv_vars st) -> D (vname v) /\ next <= vid v) /\ (forall n, In n (map fst (iv_ev st)) -> O n) /\ next <= iv_next st.
  Lemma make_made id n name : rd U (fun v => made v /\ vname v = name /\ vid v = id) (make_variable id n name).
  Proof.
    unfold make_variable. destruct (Nat.eqb_spec (String.length name) 0); cbn [rd]; auto. destruct (Nat.eqb_spec n 0); cbn [rd]; auto.
    split; [|split; auto]. exists id, n, name. unfold make_variable. destruct (Nat.eqb_spec (String.length name) 0); try contradiction. destruct (Nat.eqb_spec n 0); try contradiction. auto.
  Qed.
  Lemma add_ivok D O st v (ev : list (string * nat)) name : ivok D O st -> made v -> vname v = name /\ vid v = iv_next st -> D name -> (forall n, In n (map fst ev) -> O n) ->
    ivok D O (mkIV (S (iv_next st)) (iv_vars st ++ [v]) ev).
  Proof.
    intros (A1 & A2 & A3 & A4) M [E Ei] Dn Oe. split; [|split; [|split]]; cbn [iv_vars iv_ev iv_next]; auto.
    - apply Forall_app; auto.
    - intros w J. apply in_app_or in J as [J|[<-|[]]]; auto. rewrite E, Ei. auto.
  Qed.
  Lemma ev_names (evs : list (string * nat)) name k n :
    In n (map fst (if existsb (fun p => String.eqb (fst p) name) evs then evs else evs ++ [(name, k)])) -> In n (map fst evs) \/ n = name.
  Proof. destruct (existsb _ evs); auto. rewrite map_app, in_app_iff. simpl. intros [J|[J|[]]]; auto. Qed.

  Definition shape (g : group) (b : func) : Prop := built b /\ f_exp b = None /\ f_group b = g.
  Lemma set_shape g b c x : shape g b -> rd U (shape g) (m_set b c x).
  Proof.
    intros (A1 & A2 & A3). destruct (built_solid b A1) as [[W _] _]. destruct (m_set_spec b c x W) as [[_ ->]|(_ & _ & b' & E & _ & G & X & _)]; cbn [rd]; auto.
    rewrite E. cbn [rd]. split. eapply b_set; eauto. split; congruence.
  Qed.
  Lemma ctor_shape g : built_group g -> shape g (func_ctor g).
  Proof. intros G. split. apply b_ctor; auto. auto. Qed.
  Lemma correlated_shape g : built_group g -> rd U (shape g) (factor_correlated g).
  Proof.
    intros G. destruct (built_group_inv g G) as (WG & NE & M). destruct (factor_correlated_spec (N:=N) g NE) as [(_ & f & E & _ & Eg & X & _)|[_ ->]]; cbn [rd]; auto.
    { apply Forall_forall. intros n J. apply in_map_iff in J as (v & <- & J). rewrite Forall_forall in M. apply made_pos. auto. }
    rewrite E. cbn [rd]. split; auto. eapply b_corr; eauto.
  Qed.
  Lemma anticorrelated_shape g : built_group g -> rd U (shape g) (factor_anticorrelated g).
  Proof.
    intros G. destruct (built_group_inv g G) as (WG & NE & M). destruct (factor_anticorrelated_spec (N:=N) g NE) as [(_ & f & E & _ & Eg & X & _)|[_ ->]]; cbn [rd]; auto.
    { apply Forall_forall. intros n J. apply in_map_iff in J as (v & <- & J). rewrite Forall_forall in M. apply made_pos. auto. }
    rewrite E. cbn [rd]. split; auto. eapply b_anti; eauto.
  Qed.
  Definition group_in (vars : list var) (g : group) : Prop := built_group g /\ incl (g_soup g) vars.
  Lemma ctor_group vars soup : Forall made vars -> incl soup vars -> rd U (group_in vars) (group_ctor soup).
  Proof.
    intros M I. destruct (group_ctor soup) as [g| | | |] eqn:E; cbn [rd]; auto; try (unfold group_ctor in E; destruct (_ =? 0) in E; [|destruct (_ =? _) in E]; discriminate E).
    assert (ES : g_soup g = soup). { unfold group_ctor in E. destruct (_ =? 0) in E; [discriminate|]. destruct (_ =? _) in E; [|discriminate]. injection E as <-. reflexivity. }
    split. eapply bg_ctor; [|exact E]. apply Forall_forall. rewrite Forall_forall in M. auto. rewrite ES. auto.
  Qed.
  Lemma found_name e vars name : env_ok e -> rd U (fun v => In v vars) (find_name e vars name).
  Proof.
    intros E. unfold find_name. destruct (find _ _) as [v|] eqn:F; cbn [rd]; auto. apply find_some in F as [J _]. eapply permute_incl; [|exact J]. apply E.
  Qed.
  Lemma exp_entry vars b w g : Forall made vars -> shape g b -> incl (g_soup g) vars ->
    rd U (fun f => forall x, entry vars (f, x)) (exp_ctor b w).
  Proof.
    intros M (A1 & A2 & A3) I. destruct (built_solid b A1) as [[W _] _]. destruct (exp_ctor_ok b w W) as (f & E & _ & G & X & _). rewrite E. cbn [rd]. intros x. split; [|split]; cbn [fst snd].
    - eapply b_exp; eauto.
    - unfold f_vars. rewrite G, A3. auto.
    - intros _. congruence.
  Qed.

  (** {2 Json} *)
  Section J.
    Variable j : json.
    Hypothesis R : readable j \/ U.
    Lemma index_try x name : has_member x name \/ U -> rd U (fun y => try_access x name = Some y) (jindex x name).
    Proof.
      intros Q. unfold jindex, try_access. destruct x; cbn [rd]; auto. destruct (jmember l name) eqn:E; cbn [rd]; auto. destruct Q as [Q|Q]; auto. destruct (Q l eq_refl). congruence.
    Qed.
    Lemma access_try x name : rd U (fun y => try_access x name = Some y) (access x name).
    Proof. unfold access. destruct (try_access x name); cbn [rd]; auto. Qed.
    Lemma string_text x : rd U (fun t => exists s, x = JStr s /\ t = dump_chars s) (to_string x).
    Proof. destruct x; cbn [rd to_string]; auto. eauto. Qed.
    Lemma json_variable st x v : try_access j "Variables" = Some v -> In x (jiter v) -> ivok (describes j) (observes j) st ->
      rd U (ivok (describes j) (observes j)) (import_variable st x).
    Proof.
      intros V Jx Q. assert (RV : readable_variable x \/ U). { destruct R as [(_ & _ & R1 & _)|]; auto. left. apply (R1 v); auto. }
      unfold import_variable. eapply rd_bind. apply access_try. intros jn _ En. eapply rd_bind. apply string_text. intros name _ (sn & -> & ->).
      eapply rd_bind. apply access_try. intros js _ Es. eapply rd_bind. apply string_text. intros size _ (ss & -> & ->).
      eapply rd_bind. { apply rd_size. destruct RV as [[R1 _]|]; auto. } intros n _ _.
      eapply rd_bind. apply make_made. intros w _ [M Nw]. destruct (vset_mem (iv_vars st) w); cbn [rd]; auto.
      assert (Dn : describes j (dump_chars sn)) by (exists v, x, sn; auto).
      eapply rd_bind with (P := fun ev => forall n, In n (map fst ev) -> observes j n).
      - destruct (try_access x "evidence") as [jo|] eqn:EO; [|cbn [rd]; apply Q]. eapply rd_bind. apply string_text. intros o _ (so & -> & ->).
        eapply rd_bind. { apply rd_size. destruct RV as [[_ R1]|]; auto. } intros k _ _. cbn [rd]. intros m Jm. apply ev_names in Jm as [Jm| ->]. apply Q; auto.
        exists v, x, sn. repeat split; auto. congruence.
      - intros ev _ Oe. cbn [rd]. eapply add_ivok; eauto.
    Qed.
    Lemma json_variables : rd U (ivok (describes j) (observes j)) (let* jv := jindex j "Variables" in rfold import_variable (jiter jv) (mkIV next [] [])).
    Proof.
      eapply rd_bind. { apply index_try. destruct R as [R1|]; auto. left. apply R1. } intros jv _ V. apply rd_fold.
      - intros a b Jb Q. apply (json_variable a b jv V Jb Q).
      - split. constructor. split. intros x []. split. intros x []. cbn [iv_next]. auto.
    Qed.
    Section Vars.
      Variable e : env.
      Hypothesis EO : env_ok e.
      Variable vars : list var.
      Hypothesis MV : Forall made vars.
      Lemma json_group x : rd U (group_in vars) (import_group e vars x).
      Proof.
        unfold import_group. eapply rd_bind. { apply rd_map with (P := fun v => In v vars). intros a _. eapply rd_bind. apply string_text. intros name _ _. apply found_name; auto. }
        intros vs _ Iv. destruct (_ && _)%bool; cbn [rd]; auto. apply ctor_group; auto. rewrite Forall_forall in Iv. exact Iv.
      Qed.
      Lemma json_image g b x : readable_image x \/ U -> shape g b -> rd U (shape g) (import_image atof b x).
      Proof.
        intros RI S. unfold import_image. eapply rd_bind. { apply index_try. destruct RI as [[R1 _]|]; auto. } intros jv _ V.
        eapply rd_bind. { apply rd_map with (P := fun _ => True). intros a Ja. eapply rd_bind. apply string_text. intros t _ (s & -> & ->). apply rd_size.
          destruct RI as [[_ R1]|]; auto. left. destruct x; cbn [try_access] in V; try discriminate V. apply (R1 l jv s); auto. }
        intros comb _ _. eapply rd_bind. apply access_try. intros jd _ _. eapply rd_bind. apply string_text. intros d _ _. apply set_shape; auto.
      Qed.
      Lemma json_factor p : readable_potential p \/ U -> rd U (fun b => exists g, shape g b /\ incl (g_soup g) vars) (import_factor atof e vars p).
      Proof.
        intros RP. unfold import_factor. eapply rd_bind. apply access_try. intros jg _ _. eapply rd_bind. apply json_group. intros g _ [G I].
        destruct (try_access p "Correlation") as [jc|].
        - eapply rd_bind. apply string_text. intros c _ _. eapply rd_bind. { apply ctor_group; [exact MV|exact I]. } intros g' _ [G' I'].
          destruct (String.eqb c "T"). { eapply rd_mono. apply correlated_shape; auto. intros b S. exists g'; auto. }
          destruct (String.eqb c "F"); cbn [rd]; auto. { eapply rd_mono. apply anticorrelated_shape; auto. intros b S. exists g'; auto. }
        - eapply rd_bind. { apply ctor_group; [exact MV|exact I]. } intros g' _ [G' I']. eapply rd_bind. apply access_try. intros jd _ Ed.
          eapply rd_mono with (P := shape g'). 2:{ intros b S. exists g'; auto. }
          apply rd_fold. 2:{ apply ctor_shape; auto. } intros a b Jb S. apply json_image; auto. destruct RP as [RP|]; auto. left. apply (RP jd b Ed Jb).
      Qed.
      Lemma json_potential p : readable_potential p \/ U -> rd U (entry vars) (import_potential atof e vars p).
      Proof.
        intros RP. unfold import_potential. eapply rd_bind. apply json_factor; auto. intros b _ (g & S & I).
        assert (SB : entry vars (b, IConst)). { destruct S as (S1 & S2 & S3). split; auto. split; cbn [fst snd]. unfold f_vars. rewrite S3. auto. congruence. }
        destruct (try_access p "weight") as [jw|]; [|exact SB]. eapply rd_bind. apply string_text. intros w _ _.
        eapply rd_bind. { apply (exp_entry vars b _ g MV S I). } intros f _ Ef. eapply rd_bind with (P := fun _ => True).
        { destruct (try_access p "tunability"); cbn [rd]; auto. eapply rd_bind. apply string_text. intros t _ _. exact Logic.I. }
        intros tunable _ _. destruct tunable; [|apply Ef]. destruct (try_access p "Share") as [js|]; [|apply Ef].
        eapply rd_bind. apply json_group. intros gs _ _. apply Ef.
      Qed.
    End Vars.
  End J.

  (** {2 Xml} *)
  Section X.
    Variable place : list nat -> list nat.
    Variable files : string -> option string.
    Variable prefix : string.
    Variable doc : tag.
    Hypothesis R : xml_readable place files prefix doc \/ U.
    Lemma attr_try x name : rd U (fun y => try_attr place x name = Some y) (attr place x name).
    Proof. unfold attr. destruct (try_attr place x name); cbn [rd]; auto. Qed.
    Lemma tag_variable st x : In x (range place (nested doc) "Variable") -> ivok (xml_describes place doc) (xml_observes place doc) st ->
      rd U (ivok (xml_describes place doc) (xml_observes place doc)) (xml_import_variable place st x).
    Proof.
      intros Jx Q. assert (RV : xml_readable_variable place x \/ U). { destruct R as [(R1 & _)|]; auto. }
      unfold xml_import_variable. eapply rd_bind. apply attr_try. intros name _ En. eapply rd_bind. apply attr_try. intros size _ Es.
      eapply rd_bind. { apply rd_size. destruct RV as [[R1 _]|]; auto. } intros n _ _.
      eapply rd_bind. apply make_made. intros w _ [M Nw]. destruct (vset_mem (iv_vars st) w); cbn [rd]; auto.
      assert (Dn : xml_describes place doc name) by (exists x; auto).
      eapply rd_bind with (P := fun ev => forall n, In n (map fst ev) -> xml_observes place doc n).
      - destruct (try_attr place x "evidence") as [o|] eqn:EO; [|cbn [rd]; apply Q].
        eapply rd_bind. { apply rd_size. destruct RV as [[_ R1]|]; auto. } intros k _ _. cbn [rd]. intros m Jm. apply ev_names in Jm as [Jm| ->]. apply Q; auto.
        exists x. repeat split; auto. congruence.
      - intros ev _ Oe. cbn [rd]. eapply add_ivok; eauto.
    Qed.
    Lemma tag_variables : rd U (ivok (xml_describes place doc) (xml_observes place doc)) (rfold (xml_import_variable place) (range place (nested doc) "Variable") (mkIV next [] [])).
    Proof.
      apply rd_fold.
      - intros a b Jb Q. apply (tag_variable a b Jb Q).
      - split. constructor. split. intros x []. split. intros x []. cbn [iv_next]. auto.
    Qed.
    Section Vars.
      Variable e : env.
      Hypothesis EO : env_ok e.
      Variable vars : list var.
      Hypothesis MV : Forall made vars.
      Lemma tag_group x : rd U (group_in vars) (xml_import_group place e vars x).
      Proof.
        unfold xml_import_group. eapply rd_bind. { apply rd_map with (P := fun v => In v vars). intros a _. apply found_name; auto. }
        intros vs _ Iv. destruct (_ && _)%bool; cbn [rd]; auto. apply ctor_group; auto. rewrite Forall_forall in Iv. exact Iv.
      Qed.
      Lemma tag_image g b x : xml_readable_image place x \/ U -> shape g b -> rd U (shape g) (xml_import_image atof place b x).
      Proof.
        intros RI S. unfold xml_import_image.
        eapply rd_bind. { apply rd_map with (P := fun _ => True). intros a Ja. apply rd_size. destruct RI as [R1|]; auto. }
        intros comb _ _. eapply rd_bind. apply attr_try. intros d _ _. apply set_shape; auto.
      Qed.
      (** the values of a file *)
      Lemma line_image l : readable_line l \/ U -> rd U (fun _ => True) (parse_combination_image atof l).
      Proof.
        intros RL. unfold parse_combination_image. destruct (tokens l) as [|t ts] eqn:T. { cbn [rd]. destruct RL as [[NE _]|]; auto. congruence. }
        eapply rd_bind with (P := fun _ => True); [|intros; exact Logic.I]. eapply rd_mono. { apply rd_map with (P := fun _ => True). intros a Ja. apply rd_size. destruct RL as [[_ R1]|]; auto. left. apply R1. rewrite T. exact Ja. } auto.
      Qed.
      Definition oshape g (o : out func unit) : Prop := match o with Ret _ b => shape g b | Thr _ => True | Undef => U | _ => False end.
      Lemma values_shape g b text : (forall l, In l (lines text) -> readable_line l \/ U) -> shape g b -> oshape g (import_values atof b text).
      Proof.
        intros RL S. unfold import_values. assert (S0 : shape g (f_clear b)). { destruct S as (S1 & S2 & S3). split. apply b_clear; auto. auto. }
        revert RL S0. generalize (f_clear b). generalize (lines text). clear - e. induction l as [|x l IH]; intros f RL S; cbn [ofold]. exact S.
        pose proof (line_image x (RL x (or_introl eq_refl))) as Q. destruct (parse_combination_image atof x) as [[c y]| | | |]; cbn [lift obind oshape rd] in *; auto; try contradiction. cbn [fst snd].
        destruct (length c =? length (f_vars f)); [|exact Logic.I]. unfold set_image. pose proof (set_shape g f c y S) as Q'.
        destruct (m_set f c y); cbn [obind oshape rd] in *; auto; try contradiction. apply IH; auto. intros l0 J. apply RL. right; auto.
      Qed.
      Lemma tag_factor p : xml_readable_potential place files prefix p \/ U -> rd U (fun b => exists g, shape g b /\ incl (g_soup g) vars) (xml_import_factor atof place files prefix e vars p).
      Proof.
        intros RP. unfold xml_import_factor. eapply rd_bind. apply tag_group. intros g _ [G I].
        eapply rd_bind. { apply ctor_group; [exact MV|exact I]. } intros g' _ [G' I'].
        destruct (try_attr place p "Correlation") as [c|].
        - destruct (String.eqb c "T"). { eapply rd_mono. apply correlated_shape; auto. intros b S. exists g'; auto. }
          destruct (String.eqb c "F"); cbn [rd]; auto. { eapply rd_mono. apply anticorrelated_shape; auto. intros b S. exists g'; auto. }
        - destruct (try_attr place p "Source") as [source|] eqn:ES.
          + destruct (files (prefix ++ "/" ++ source)%string) as [text|] eqn:EF; cbn [rd]; auto.
            assert (RL : forall l, In l (lines text) -> readable_line l \/ U). { intros l Jl. destruct RP as [[_ RP]|]; auto. left. apply (RP source text l ES EF Jl). }
            pose proof (values_shape g' (func_ctor g') text RL (ctor_shape g' G')) as Q. destruct (import_values atof (func_ctor g') text) as [[] b|b| | |]; cbn [oshape rd] in *; auto. exists g'; auto.
          + eapply rd_mono with (P := shape g'). 2:{ intros b S. exists g'; auto. }
            apply rd_fold. 2:{ apply ctor_shape; auto. } intros a b Jb S. apply tag_image; auto. destruct RP as [[RP _]|]; auto.
      Qed.
      Lemma tag_potential p : xml_readable_potential place files prefix p \/ U -> rd U (entry vars) (xml_import_potential atof place files prefix e vars p).
      Proof.
        intros RP. unfold xml_import_potential. eapply rd_bind. apply tag_factor; auto. intros b _ (g & S & I).
        assert (SB : entry vars (b, IConst)). { destruct S as (S1 & S2 & S3). split; auto. split; cbn [fst snd]. unfold f_vars. rewrite S3. auto. congruence. }
        destruct (try_attr place p "weight") as [w|]; [|exact SB].
        eapply rd_bind. { apply (exp_entry vars b _ g MV S I). } intros f _ Ef.
        cbn zeta. destruct (match try_attr place p "tunability" with None => false | Some x => String.eqb x "Y" end); [|apply Ef]. destruct (mfind place (nested p) "Share") as [js|]; [|apply Ef].
        eapply rd_bind. apply tag_group. intros gs _ _. apply Ef.
      Qed.
    End Vars.
  End X.
End Read.

(** {1 The imports} *)
Section Imports.
  Context {N : num}.
  Notation rst := (rst (N:=N)).
  Variable atof : string -> N.
  Variables U NN NS : Prop.
  Variable next : nat.

  Section Any.
    Variables describes observes : string -> Prop.
    Let D (v : var) : Prop := describes (vname v) /\ next <= vid v.
    Variable B : nat.
    Variables I J : rst -> Prop.
    Hypothesis I_rinv : forall t, I t -> rinv t /\ B <= r_top t.
    Hypothesis I_new : forall t f, I t -> built f -> (forall v, In v (f_vars f) -> D v) -> I (snd (alloc t f)).
    Hypothesis I_const : forall t k, I t -> B <= k < r_top t -> (forall v, In v (f_vars (r_h t k)) -> D v) -> oin U NN NS I (add_const (Some k) t).
    Hypothesis I_tun : forall t k sh, I t -> B <= k -> expo t k -> (forall v, In v (f_vars (r_h t k)) -> D v) -> oin U NN NS I (add_tunable (Some k) sh t).
    Hypothesis I_J : forall t, I t -> J t.

    Lemma any_doc e tun iv pots s : env_ok e -> rd U (ivok next describes observes) iv ->
      (forall x, iv = Ok x -> rd U (Forall (rd U (entry (iv_vars x)))) (pots x)) ->
      (forall n k t, observes n -> J t -> oin U NN NS J (on_g (fun g => set_evidence_name (r_h t) e g n k) t)) -> I s ->
      oin U NN NS J (do (x, s) <- lift iv s ;; run_doc e tun (pots x) (iv_ev x) s).
    Proof.
      intros E V P SE Is. destruct iv as [x| | | |]; cbn [lift obind oin rd] in *; auto; try contradiction. destruct V as (V1 & V2 & V3 & _).
      apply (run_doc_in (iv_vars x) U NN NS B I I_rinv) with (J := J); auto.
      - intros t f It Bf Vf. apply I_new; auto. intros v Jv. apply V2. apply Vf; auto.
      - intros t k It L Vf. apply I_const; auto. intros v Jv. apply V2. apply Vf; auto.
      - intros t k sh It L X Vf. apply I_tun; auto. intros v Jv. apply V2. apply Vf; auto.
    Qed.
  End Any.

  Lemma import_json_doc e tun j (s : rst) : import_json atof e tun next j s =
    do (x, s) <- lift (let* jv := jindex j "Variables" in rfold import_variable (jiter jv) (mkIV next [] [])) s ;;
    run_doc e tun (let* jp := jindex j "Potentials" in Ok (map (import_potential atof e (iv_vars x)) (jiter jp))) (iv_ev x) s.
  Proof.
    unfold import_json, convert_json. destruct (let* jv := jindex j "Variables" in rfold import_variable (jiter jv) (mkIV next [] [])) as [x| | | |]; cbn [lift obind]; auto.
    unfold run_doc. destruct (jindex j "Potentials") as [jp| | | |]; cbn [lift obind rbind]; auto.
    assert (A : forall l cum t, import_all atof e tun (iv_vars x) l cum t = run_all tun (map (import_potential atof e (iv_vars x)) l) cum t).
    { induction l as [|p l IH]; intros cum t; cbn [import_all run_all map]; auto. unfold import_one, run_one. destruct (lift (import_potential atof e (iv_vars x) p) t); cbn [obind]; auto.
      destruct (alloc s0 (fst a)) as [k u]. match goal with |- obind ?o _ = _ => destruct o end; cbn [obind]; auto. }
    rewrite A. destruct (run_all tun _ [] s) as [cum t| | | |]; cbn [obind]; auto. destruct (ofold _ cum t) as [[] u| | | |]; cbn [obind]; auto.
  Qed.
  Lemma import_xml_doc place files prefix e tun d (s : rst) : import_xml atof place files prefix e tun next d s =
    do (x, s) <- lift (rfold (xml_import_variable place) (range place (nested d) "Variable") (mkIV next [] [])) s ;;
    run_doc e tun (Ok (map (xml_import_potential atof place files prefix e (iv_vars x)) (range place (nested d) "Potential"))) (iv_ev x) s.
  Proof.
    unfold import_xml, convert_xml. destruct (rfold (xml_import_variable place) (range place (nested d) "Variable") (mkIV next [] [])) as [x| | | |]; cbn [lift obind]; auto.
    unfold run_doc. cbn [lift obind].
    assert (A : forall l cum t, xml_import_all atof place files prefix e tun (iv_vars x) l cum t = run_all tun (map (xml_import_potential atof place files prefix e (iv_vars x)) l) cum t).
    { induction l as [|p l IH]; intros cum t; cbn [xml_import_all run_all map]; auto. unfold xml_import_one, run_one. destruct (lift (xml_import_potential atof place files prefix e (iv_vars x) p) t); cbn [obind]; auto.
      destruct (alloc s0 (fst a)) as [k u]. match goal with |- obind ?o _ = _ => destruct o end; cbn [obind]; auto. }
    rewrite A. destruct (run_all tun _ [] s) as [cum t| | | |]; cbn [obind]; auto. destruct (ofold _ cum t) as [[] u| | | |]; cbn [obind]; auto.
  Qed.

  (** a document that has been read *)
  Definition document (describes observes : string -> Prop) (e : env) (o : rst -> out rst unit) (tun : bool) : Prop :=
    exists iv pots, (forall s, o s = do (x, s) <- lift iv s ;; run_doc e tun (pots x) (iv_ev x) s) /\
      rd U (ivok next describes observes) iv /\ (forall x, iv = Ok x -> rd U (Forall (rd U (entry (iv_vars x)))) (pots x)).
  Lemma json_document e tun j : env_ok e -> readable j \/ U -> document (describes j) (observes j) e (import_json atof e tun next j) tun.
  Proof.
    intros E R. eexists. eexists (fun x => let* jp := jindex j "Potentials" in Ok (map (import_potential atof e (iv_vars x)) (jiter jp))). split. { intros s. apply import_json_doc. }
    pose proof (json_variables U next j R) as V. split; auto. intros x Ex. rewrite Ex in V. cbn [rd] in V. eapply rd_bind. { apply index_try. destruct R as [(_ & R & _)|]; auto. }
    intros jp _ P. cbn [rd]. apply Forall_forall. intros r Jr. apply in_map_iff in Jr as (p & <- & Jp). apply (json_potential atof U e E (iv_vars x)); [apply V|].
    destruct R as [(_ & _ & _ & R)|]; auto. left. apply (R jp p P Jp).
  Qed.
  Lemma xml_document place files prefix e tun d : env_ok e -> xml_readable place files prefix d \/ U ->
    document (xml_describes place d) (xml_observes place d) e (import_xml atof place files prefix e tun next d) tun.
  Proof.
    intros E R. eexists. eexists (fun x => Ok (map (xml_import_potential atof place files prefix e (iv_vars x)) (range place (nested d) "Potential"))). split. { intros s. apply import_xml_doc. }
    pose proof (tag_variables U next place files prefix d R) as V. split; auto. intros x Ex. rewrite Ex in V. cbn [rd] in V.
    cbn [rd]. apply Forall_forall. intros r Jr. apply in_map_iff in Jr as (p & <- & Jp). apply (tag_potential atof U place files prefix e E (iv_vars x)); [apply V|].
    destruct R as [(_ & R)|]; auto.
  Qed.
End Imports.
