(** The import of what has been exported: the insertions of the factors *)
From Coq Require Import Ascii String List Arith ZArith Bool Lia Permutation.
From Verif Require Import Res Num Categoric Combs Func FuncProofs GroupProofs FactorProofs FactorApi Special SpecialProofs
  Graph GraphLemmas Clusters Belief Query Gibbs GraphInv EvidInv BeliefInv BPRun GraphSpec Hist P_Graph BeliefSpec BeliefHist Train TrainHist Coherent CRF CRFHist TrainInv FieldHist
  Plan CopyProofs IO TextSpec TextProofs Json JsonRead.
Import ListNotations.
Open Scope nat_scope.

Section Tops.
  Context {N : num}.
  Notation rst := (rst (N:=N)).
  Implicit Types s : rst.
  Definition otop {A} s (o : out rst A) : Prop := match o with Ret _ t => r_top t = r_top s | _ => True end.
  Lemma otop_bind {A D} s (o : out rst A) (f : A -> rst -> out rst D) : otop s o -> (forall a t, r_top t = r_top s -> otop s (f a t)) -> otop s (obind o f).
  Proof. destruct o; simpl; auto. Qed.
  Lemma otop_g {A} s t (m : gst -> out gst A) : r_top t = r_top s -> otop s (on_g m t).
  Proof. intros E. unfold on_g. destruct (m (r_g t)); simpl; auto. Qed.
  Lemma otop_lift {A} s t (r : res A) : r_top t = r_top s -> otop s (lift r t).
  Proof. intros E. destruct r; simpl; auto. Qed.
  Lemma otop_fold {X} (f : X -> rst -> out rst unit) l : (forall x t, otop t (f x t)) -> forall s t, r_top t = r_top s -> otop s (ofold f l t).
  Proof.
    intros F. induction l as [|x l IH]; intros s t E; cbn [ofold]. exact E. apply otop_bind.
    - specialize (F x t). destruct (f x t); simpl in *; auto. congruence.
    - intros _ u Eu. apply IH; auto.
  Qed.
  Lemma add_const_top d s : otop s (add_const d s).
  Proof. apply otop_bind. apply otop_g; auto. intros _ t E. destruct d; exact E. Qed.
  Lemma add_tunable_top d sh s : otop s (add_tunable d sh s).
  Proof.
    apply otop_bind. apply otop_g; auto. intros _ t E. destruct d as [f|]; [|exact Logic.I].
    apply otop_bind. apply otop_lift; auto. intros b u Eu. destruct sh as [group|]; [|exact Eu].
    apply otop_bind. apply otop_lift; exact Eu. intros i u1 E1. apply otop_bind. apply otop_lift; auto. intros o u2 E2.
    apply otop_bind. apply otop_lift; exact E2. intros w u3 E3. unfold tuner_set_weight. apply otop_fold; auto.
    intros x t0. unfold base_set_weight. apply otop_bind. apply otop_lift; auto. intros x0 t1 E4. exact E4.
  Qed.
End Tops.

Lemma Permutation_heads {A} (cl : list (list A)) : Permutation (concat (map (firstn 1) cl) ++ concat (map (skipn 1) cl)) (concat cl).
Proof.
  induction cl as [|c cl IH]; simpl; auto. rewrite <- app_assoc. rewrite <- IH. rewrite (Permutation_app_swap_app (concat (map (firstn 1) cl)) (skipn 1 c)).
  rewrite (app_assoc (firstn 1 c)). rewrite firstn_skipn. auto.
Qed.
Lemma observed_at {N : num} e (g : gst (N:=N)) H : core H g (g_all g) -> env_ok e -> Forall2 (var_at g) (evidence_order e g) (observed_variables e g).
Proof.
  intros Q E. assert (LT : forall a, In a (evidence_order e g) -> a < gsize g).
  { intros a J. unfold evidence_order in J. apply ord_In, keys_In in J as [L _]; auto. }
  assert (ND : NoDup (evidence_order e g)). { unfold evidence_order. eapply Permutation_NoDup. symmetry. apply E. apply keys_NoDup. }
  destruct (evidence_order e g) as [|a0 l] eqn:EO.
  { unfold observed_variables. unfold evidence_order in EO. rewrite EO. constructor. }
  assert (X : exists d, var_at g a0 d). { assert (L0 : a0 < gsize g) by (apply LT; left; auto). unfold gsize in L0. destruct (nth_error (g_vars g) a0) as [d|] eqn:D. exists d; exact D. apply nth_error_None in D. lia. }
  destruct X as [d _]. unfold observed_variables. unfold evidence_order in EO. rewrite EO.
  rewrite (collect_vars g (a0 :: l) (co_vars _ _ _ Q) ND LT d). clear EO ND. revert LT. generalize (a0 :: l).
  induction l0 as [|a r IH]; intros LT; simpl; constructor. apply nth_error_nth'. apply LT; left; auto. apply IH. intros b J. apply LT. right; auto.
Qed.

Section Import.
  Context {N : num} (OK : num_ok N).
  Notation gst := (gst (N:=N)).
  Notation rst := (rst (N:=N)).
  Implicit Types s : rst.
  Variable fprint : N -> string.
  Variable atof : string -> N.
  Notation rnd := (rnd fprint atof).
  Hypothesis fprint_plain : forall x, plain (fprint x).
  Hypothesis rnd_zero : rnd n0 = n0.
  Hypothesis rnd_nonneg : forall x, (n0 <= x)%num -> (n0 <= rnd x)%num.

  (** the source *)
  Variable P0 : Prop.
  Variable src : rst.
  Hypothesis CS : coh P0 src.
  (** the variables, in the order they are read *)
  Variable V : list var.
  Hypothesis VP : Permutation V (g_vars (r_g src)).
  Hypothesis VW : Forall writable V.
  Hypothesis VN : NoDup (map vname V).
  (** the recipient is empty; [next] is the address of the next variable *)
  Variable h0 : nat -> func N.
  Variable t0 : nat.
  Hypothesis h0_built : forall f, built (h0 f).
  Variable next : nat.
  (** the orders of the exporter and of the importer *)
  Variables ex e : env.
  Hypothesis EX : env_ok ex.
  Hypothesis EO : env_ok e.
  Variable tun : bool.

  Notation vars := (fresh next V).
  Notation rho := (renamed vars).
  Definition B (f : nat) : func N := blue fprint atof e V next (r_h src f).
  Notation L0 := (g_all (r_g src)).
  Notation lc := (e_ord ex 0 (r_const src)).
  Notation cl := (tunable_clusters src).

  Lemma V_in v : In v V <-> In v (g_vars (r_g src)).
  Proof. split; apply Permutation_in; auto. symmetry; auto. Qed.
  Lemma fac_vars f : In f L0 -> incl (f_vars (r_h src f)) V /\ (length (f_vars (r_h src f)) = 1 \/ length (f_vars (r_h src f)) = 2).
  Proof.
    intros J. split. { intros v Jv. apply V_in. eapply src_vars_in; eauto. }
    destruct (src_shape P0 src CS f J) as [(v & -> & _)|(x & y & -> & _)]; auto.
  Qed.
  Lemma fac_good f : good (r_h src f).
  Proof. apply (coh_good OK P0). auto. Qed.
  Lemma fac_keys f : NoDup (map vkey (f_vars (r_h src f))).
  Proof. destruct (fac_good f) as ((_ & [W _]) & _). exact W. Qed.
  Lemma B_spec f : In f L0 -> built (B f) /\ f_group (B f) = mkGroup (map rho (f_vars (r_h src f))) (map rho (f_vars (r_h src f))) /\
    f_exp (B f) = option_map rnd (f_exp (r_h src f)) /\ forall c, valid_comb (fsizes (r_h src f)) c -> fimg (B f) c = rnd (fimg (r_h src f) c).
  Proof.
    intros J. destruct (fac_vars f J) as [I L]. destruct (blue_shape OK fprint atof fprint_plain rnd_zero rnd_nonneg e EO V next VW VN (r_h src f) (fac_good f) I L) as (imgs & b & _ & _ & _ & Q).
    exact Q.
  Qed.
  Lemma B_vars f : In f L0 -> f_vars (B f) = map rho (f_vars (r_h src f)).
  Proof. intros J. destruct (B_spec f J) as (_ & E & _). unfold f_vars at 1. rewrite E. reflexivity. Qed.
  Lemma rho_inj' v w : In v V -> In w V -> rho v = rho w -> v = w.
  Proof. apply rho_inj; auto. Qed.
  Lemma rho_map_inj a b : incl a V -> incl b V -> map rho a = map rho b -> a = b.
  Proof.
    revert b. induction a as [|x a IH]; intros [|y b] Ia Ib E; try discriminate; auto. cbn [map] in E. injection E as E1 E2. f_equal.
    - apply rho_inj'; auto. apply Ia; left; auto. apply Ib; left; auto.
    - apply IH; auto. intros z J. apply Ia; right; auto. intros z J. apply Ib; right; auto.
  Qed.

  (** {1 The plan} *)
  Lemma plan_nd : NoDup (map vkey vars).
  Proof. rewrite fresh_keys. eapply Permutation_NoDup; [|apply (src_nd P0 src CS)]. apply Permutation_map. symmetry; auto. Qed.
  Lemma rho_in v : In v (g_vars (r_g src)) -> In (rho v) vars.
  Proof. intros J. apply rho_spec; auto. apply V_in; auto. Qed.
  Lemma plan_shape f : In f L0 -> (exists v, f_vars (B f) = [v] /\ In v vars) \/ (exists x y, f_vars (B f) = [x; y] /\ In x vars /\ In y vars).
  Proof.
    intros J. rewrite B_vars by auto. destruct (src_shape P0 src CS f J) as [(v & -> & Jv)|(x & y & -> & Jx & Jy)].
    - left. exists (rho v). split; auto using rho_in.
    - right. exists (rho x), (rho y). split; auto using rho_in.
  Qed.
  Lemma plan_pair f g x y : In f L0 -> In g L0 -> f_vars (B f) = [x; y] -> f_vars (B g) = [x; y] \/ f_vars (B g) = [y; x] -> f = g.
  Proof.
    intros Jf Jg Ef Eg. rewrite B_vars in Ef, Eg by auto. destruct (fac_vars f Jf) as [If _]. destruct (fac_vars g Jg) as [Ig _].
    destruct (f_vars (r_h src f)) as [|a [|b [|]]] eqn:VF; try discriminate. cbn [map] in Ef. injection Ef as <- <-.
    eapply (src_pair P0 src CS f g a b); auto.
    assert (Iab : incl [a; b] V) by (intros z Jz; apply If; rewrite ?VF; exact Jz).
    assert (Iba : incl [b; a] V) by (intros z [<-|[<-|[]]]; apply Iab; simpl; auto).
    destruct Eg as [Eg|Eg].
    - left. apply rho_map_inj; auto.
    - right. apply rho_map_inj; auto.
  Qed.
  Definition order : list nat := lc ++ concat cl.
  (** the address of the object made for a factor *)
  Definition place (f k : nat) : Prop := t0 <= k /\ nth_error order (k - t0) = Some f.
  Notation part := (Plan.part h0 t0 B L0 place).
  Notation twin := (Plan.twin B place).
  Notation ttwin := (Plan.ttwin B place).
  Notation add_const_part := (Plan.add_const_part h0 t0 B vars L0 plan_nd plan_shape plan_pair place).
  Notation add_own := (Plan.add_own h0 t0 B vars L0 plan_nd plan_shape plan_pair place).
  Notation add_share := (Plan.add_share h0 t0 B vars L0 plan_nd plan_shape plan_pair place).
  Notation import_all := (import_all atof e tun vars).
  Notation import_potential := (import_potential atof e vars).

  Lemma order_nd : NoDup order.
  Proof.
    pose proof (ch_r _ _ CS) as RS. pose proof (ri_facs _ RS) as Q. apply NoDup_app_parts in Q as Q'. apply NoDup_app_intro.
    - eapply Permutation_NoDup; [symmetry; apply (proj1 EX 0 (r_const src))|]. apply Q'.
    - apply (ri_cls _ RS).
    - intros x Jx Jy. apply (Permutation_in _ (proj1 EX 0 (r_const src))) in Jx. eapply NoDup_split_app; eauto. apply (ri_tun _ RS). auto.
  Qed.
  Lemma order_in f : In f order -> In f L0.
  Proof.
    pose proof (ch_r _ _ CS) as RS. intros J. apply (ri_in _ RS). apply in_app_or in J as [J|J]; apply in_or_app.
    - left. eapply Permutation_in; [apply (proj1 EX 0 (r_const src))|exact J].
    - right. apply (ri_tun _ RS). auto.
  Qed.
  Lemma not_inserted done s f k : part done s -> place f k -> ~ In f done -> ~ In k (g_all (r_g s)).
  Proof.
    intros PA [_ M] NI J. destruct (F2_in_r _ _ _ (pa_facs _ _ _ _ _ _ _ PA) k J) as (f' & Jf & _ & _ & _ & M'). congruence.
  Qed.
  Lemma place_next pre f suf s : order = pre ++ f :: suf -> r_top s = t0 + length pre -> place f (r_top s).
  Proof. intros E T. split. lia. rewrite T, E. replace (t0 + length pre - t0) with (length pre) by lia. rewrite nth_error_app2, Nat.sub_diag by lia. reflexivity. Qed.
  Lemma fresh_twin s f : place f (r_top s) -> ttwin (snd (alloc s (B f))) f (r_top s).
  Proof. intros M. unfold Plan.ttwin, Plan.twin. cbn [alloc snd r_h]. rewrite fupd_eq. auto. Qed.

  (** {1 Const factors} *)
  Definition reads_const (f : nat) (j : json) : Prop := exists w, import_potential j = Ok (B f, w) /\ (w = IConst \/ tun = false).
  Lemma reach_new s c : rreach h0 t0 alert s -> built c -> rreach h0 t0 alert (snd (alloc s c)).
  Proof.
    intros R BC. eapply RR_ret with (e := e) (op := RNew c); [exact R|exact BC|split; [split; simpl; auto|exact Logic.I]|exact EO|reflexivity].
  Qed.
  Lemma reach_const s k s' : rreach h0 t0 alert s -> k < r_top s -> add_const (Some k) s = Ret tt s' -> rreach h0 t0 alert s'.
  Proof.
    intros R L E. eapply RR_ret with (e := e) (op := RConst (Some k)); [exact R|exact L|split; [split; simpl; auto|exact Logic.I]|exact EO|].
    cbn [rcall]. unfold runit, rmapo. rewrite E. reflexivity.
  Qed.
  Lemma reach_tun s k share s' : rreach h0 t0 alert s -> CRFHist.blank s -> expo s k -> add_tunable (Some k) share s = Ret tt s' -> rreach h0 t0 alert s'.
  Proof.
    intros R BL X E. eapply RR_ret with (e := e) (op := RTun (Some k) share); [exact R|exact X| |exact EO|].
    - split; [split|exact Logic.I]; [|exact Logic.I]. cbn [careful]. destruct share; [|exact Logic.I]. intros v _. apply BL.
    - cbn [rcall]. unfold runit, rmapo. rewrite E. reflexivity.
  Qed.

  Lemma consts_ok l js : Forall2 reads_const l js -> forall pre suf s more cum, part pre s -> order = pre ++ l ++ suf -> r_top s = t0 + length pre ->
    rreach h0 t0 alert s -> r_tuners s = [] ->
    exists s', import_all (js ++ more) cum s = import_all more cum s' /\ part (pre ++ l) s' /\ r_top s' = t0 + length (pre ++ l) /\ rreach h0 t0 alert s' /\ r_tuners s' = [].
  Proof.
    induction 1 as [|f j l js (w & RP & WW) F IH]; intros pre suf s more cum PA EQ T R TU.
    - exists s. rewrite !app_nil_r. auto 10.
    - cbn [app Json.import_all]. pose proof order_nd as ND. rewrite EQ in ND.
      assert (Jf : In f L0). { apply order_in. rewrite EQ. apply in_or_app. right. left; auto. }
      assert (Nf : ~ In f pre). { apply NoDup_remove_2 in ND. intros Q. apply ND. apply in_or_app; auto. }
      assert (BB : built (B f)) by (apply B_spec; auto).
      pose proof (place_next pre f (l ++ suf) s EQ T) as M.
      destruct (alloc_part _ _ _ _ _ pre s (B f) PA BB) as (PT & GT & HT & LT & NT).
      destruct (add_const_part pre (snd (alloc s (B f))) f (r_top s) PT Jf Nf (proj1 (fresh_twin s f M)) LT NT) as (s1 & E1 & P1 & T1 & G1).
      assert (ONE : import_one atof e tun vars j cum s = Ret cum s1).
      { unfold import_one. rewrite RP. cbn [lift obind fst snd]. destruct (alloc s (B f)) as [k t] eqn:AL. unfold alloc in AL. injection AL as <- <-.
        cbn [alloc snd] in E1. destruct WW as [-> | ->].
        - rewrite E1. reflexivity.
        - destruct w; rewrite E1; reflexivity. }
      rewrite ONE. cbn [obind].
      assert (TP : r_top s1 = t0 + length (pre ++ [f])).
      { pose proof (add_const_top (Some (r_top s)) (snd (alloc s (B f)))) as Q. rewrite E1 in Q. cbn [otop] in Q. rewrite Q. cbn [alloc snd r_top]. rewrite T, app_length. simpl. lia. }
      destruct (IH (pre ++ [f]) suf s1 more cum P1) as (s2 & E2 & P2 & T2 & R2 & U2); auto.
      + rewrite EQ, <- app_assoc. reflexivity.
      + eapply reach_const; [|exact LT|exact E1]. apply reach_new; auto.
      + rewrite T1. exact TU.
      + exists s2. rewrite <- app_assoc in P2, T2. auto.
  Qed.

  (** {1 Tunable factors} *)
  Definition group_of (f : nat) : list var := map rho (f_vars (r_h src f)).
  Definition reads_own (f : nat) (j : json) : Prop := import_potential j = Ok (B f, ITun).
  Definition reads_share (f g : nat) (j : json) : Prop := import_potential j = Ok (B g, IShare (group_of f)).
  Definition pending s (fg : nat * nat) (q : nat * list var) : Prop := ttwin s (snd fg) (fst q) /\ fst q < r_top s /\ snd q = group_of (fst fg).
  Definition clus_of s (cs : list (list nat)) : Prop := Forall2 (Forall2 (ttwin s)) cs (tunable_clusters s).
  Definition tunes_src f : Prop := In f (concat cl).
  Lemma tunes_plan f : tunes_src f -> Plan.tunable B L0 f.
  Proof.
    intros J. assert (JA : In f L0) by (apply order_in; apply in_or_app; auto). split; auto.
    destruct (B_spec f JA) as (_ & _ & -> & _). destruct (tunable_exp P0 src CS f J) as (w & ->). simpl. eauto.
  Qed.
  Lemma tunes_in f : tunes_src f -> In f L0.
  Proof. intros J. apply order_in. apply in_or_app; auto. Qed.
  Lemma pending_grow s s' fg q : grow s s' -> pending s fg q -> pending s' fg q.
  Proof. intros [T G] (A1 & A2 & A3). split; [|split; auto; lia]. eapply Plan.ttwin_ext; [|exact A1]. apply G; auto. Qed.
  Lemma ttwin_grow' s s' cs ds : rinv s -> grow s s' -> incl ds (tunable_clusters s) -> Forall2 (Forall2 (ttwin s)) cs ds -> Forall2 (Forall2 (ttwin s')) cs ds.
  Proof.
    intros I [_ G] Il F. eapply F2_mono; [|exact F]. intros c d _ Jd Q. eapply F2_mono; [|exact Q]. intros f k _ Jk.
    apply Plan.ttwin_ext. apply G. apply (ri_top _ I). apply (ri_in _ I). apply in_or_app. right. apply (ri_tun _ I). apply in_concat. eauto.
  Qed.
  Lemma clus_grow s s' cs : rinv s -> grow s s' -> tunable_clusters s' = tunable_clusters s -> clus_of s cs -> clus_of s' cs.
  Proof. intros I G E Q. unfold clus_of. rewrite E. eapply ttwin_grow'; eauto. intros x; auto. Qed.

  Hypothesis TT : tun = true.
  (** the factors that will share a weight are kept for later *)
  Lemma shares_ok f r jr : Forall2 (reads_share f) r jr -> forall pre suf done cur pend cum s more, part done s -> order = pre ++ r ++ suf -> r_top s = t0 + length pre ->
    rreach h0 t0 alert s -> clus_of s cur -> Forall2 (pending s) pend cum ->
    exists s' cum', import_all (jr ++ more) cum s = import_all more cum' s' /\ part done s' /\ r_top s' = t0 + length (pre ++ r) /\ rreach h0 t0 alert s' /\
      clus_of s' cur /\ Forall2 (pending s') (pend ++ map (pair f) r) cum'.
  Proof.
    induction 1 as [|g j r jr RP F IH]; intros pre suf done cur pend cum s more PA EQ T R CL PE.
    - exists s, cum. cbn [map]. rewrite !app_nil_r. auto 10.
    - cbn [app Json.import_all].
      assert (Jg : In g L0). { apply order_in. rewrite EQ. apply in_or_app. right. left; auto. }
      assert (BB : built (B g)) by (apply B_spec; auto).
      pose proof (place_next pre g (r ++ suf) s EQ T) as M.
      destruct (alloc_part _ _ _ _ _ done s (B g) PA BB) as (PT & GT & HT & LT & NT).
      assert (ONE : import_one atof e tun vars j cum s = Ret (cum ++ [(r_top s, group_of f)]) (snd (alloc s (B g)))).
      { unfold import_one. rewrite RP. cbn [lift obind fst snd]. rewrite TT. reflexivity. }
      rewrite ONE. cbn [obind]. set (s1 := snd (alloc s (B g))) in *.
      destruct (IH (pre ++ [g]) suf done cur (pend ++ [(f, g)]) (cum ++ [(r_top s, group_of f)]) s1 more PT) as (s2 & cum2 & E2 & P2 & T2 & R2 & C2 & Q2).
      + rewrite EQ, <- app_assoc. reflexivity.
      + cbn [s1 alloc snd r_top]. rewrite T, app_length. simpl. lia.
      + apply reach_new; auto.
      + eapply clus_grow; eauto. apply (ch_r _ _ (pa_coh _ _ _ _ _ _ _ PA)).
      + apply Forall2_app.
        * eapply F2_mono; [|exact PE]. intros a b _ _. apply pending_grow; auto.
        * constructor; auto. split; [|split; auto]. apply fresh_twin; auto.
      + exists s2, cum2. rewrite <- app_assoc in T2, Q2. split; auto.
  Qed.
  Definition pairs (c : list nat) : list (nat * nat) := match c with f :: r => map (pair f) r | [] => [] end.
  Definition reads_cluster (c : list nat) (js : list json) : Prop :=
    match c, js with f :: r, j :: jr => reads_own f j /\ Forall2 (reads_share f) r jr | _, _ => False end.
  Lemma clusters_ok cs ts : Forall2 reads_cluster cs ts -> forall pre done cur pend cum s, part done s -> order = pre ++ concat cs -> r_top s = t0 + length pre ->
    rreach h0 t0 alert s -> clus_of s cur -> Forall2 (pending s) pend cum -> incl (concat cs) (concat cl) -> (forall f, In f (concat cs) -> ~ In f done) ->
    exists s' cum', import_all (concat ts) cum s = Ret cum' s' /\ part (done ++ concat (map (firstn 1) cs)) s' /\ rreach h0 t0 alert s' /\
      clus_of s' (cur ++ map (firstn 1) cs) /\ Forall2 (pending s') (pend ++ flat_map pairs cs) cum'.
  Proof.
    induction 1 as [|c js cs ts RC F IH]; intros pre done cur pend cum s PA EQ T R CL PE IC ND.
    - exists s, cum. cbn [map concat flat_map]. rewrite !app_nil_r. auto 10.
    - destruct c as [|f r]; [contradiction|]. destruct js as [|j jr]; [contradiction|]. destruct RC as [RO RS].
      cbn [concat app Json.import_all]. cbn [concat app] in EQ.
      assert (Jc : tunes_src f) by (apply IC; left; auto). pose proof (tunes_in f Jc) as Jf.
      assert (Nf : ~ In f done) by (apply ND; left; auto).
      assert (BB : built (B f)) by (apply B_spec; auto).
      pose proof (place_next pre f (r ++ concat cs) s EQ T) as M.
      destruct (alloc_part _ _ _ _ _ done s (B f) PA BB) as (PT & GT & HT & LT & NT).
      destruct (add_own done (snd (alloc s (B f))) f (r_top s) PT (tunes_plan f Jc) Nf (fresh_twin s f M) LT NT) as (s1 & E1 & P1 & C1 & G1).
      assert (ONE : import_one atof e tun vars j cum s = Ret cum s1).
      { unfold import_one. rewrite RO. cbn [lift obind fst snd]. rewrite TT. destruct (alloc s (B f)) as [k t] eqn:AL. unfold alloc in AL. injection AL as <- <-.
        cbn [alloc snd] in E1. rewrite E1. reflexivity. }
      rewrite ONE. cbn [obind].
      assert (TP : r_top s1 = t0 + length (pre ++ [f])).
      { pose proof (add_tunable_top (Some (r_top s)) None (snd (alloc s (B f)))) as Q. rewrite E1 in Q. cbn [otop] in Q. rewrite Q. cbn [alloc snd r_top]. rewrite T, app_length. simpl. lia. }
      assert (G0 : grow s s1) by (eapply grow_trans; eauto).
      assert (RI : rinv s) by apply (ch_r _ _ (pa_coh _ _ _ _ _ _ _ PA)).
      assert (X : expo (snd (alloc s (B f))) (r_top s)).
      { split; auto. rewrite HT. destruct (tunes_plan f Jc) as [_ (w & ->)]. discriminate. }
      assert (R1 : rreach h0 t0 alert s1). { eapply reach_tun; [apply reach_new; [exact R|exact BB]|apply PT|exact X|exact E1]. }
      assert (CL1 : clus_of s1 (cur ++ [[f]])).
      { unfold clus_of. rewrite C1. change (tunable_clusters (snd (alloc s (B f)))) with (tunable_clusters s). apply Forall2_app.
        - eapply ttwin_grow'; eauto. intros x; auto.
        - constructor; auto. constructor; auto. eapply Plan.ttwin_ext; [|apply (fresh_twin s f M)]. apply G1. auto. }
      rewrite <- app_assoc in EQ || idtac.
      destruct (shares_ok f r jr RS (pre ++ [f]) (concat cs) (done ++ [f]) (cur ++ [[f]]) pend cum s1 (concat ts) P1) as (s2 & cum2 & E2 & P2 & T2 & R2 & C2 & Q2); auto.
      + rewrite EQ, <- app_assoc. reflexivity.
      + eapply F2_mono; [|exact PE]. intros a b _ _. apply pending_grow; auto.
      + rewrite E2.
        destruct (IH ((pre ++ [f]) ++ r) (done ++ [f]) (cur ++ [[f]]) (pend ++ map (pair f) r) cum2 s2 P2) as (s3 & cum3 & E3 & P3 & R3 & C3 & Q3); auto.
        * rewrite EQ, <- !app_assoc. reflexivity.
        * intros x Jx. apply IC. cbn [concat]. apply in_or_app; auto.
        * intros x Jx Q. apply in_app_or in Q as [Q|[<-|[]]]. apply (ND x); auto. cbn [concat]. apply in_or_app; auto.
          pose proof order_nd as O. rewrite EQ in O. apply NoDup_remove_2 in O. apply O. apply in_or_app. right. apply in_or_app; auto.
        * exists s3, cum3. cbn [map concat flat_map firstn pairs]. rewrite <- app_assoc in P3. rewrite <- app_assoc in C3. rewrite <- app_assoc in Q3. auto.
  Qed.

  (** {1 Shared weights} *)
  Hypothesis clear : forall old f r rest c g, cl = old ++ (f :: r) :: rest -> r <> [] -> In c old -> In g c -> ~ Permutation (f_vars (r_h src g)) (f_vars (r_h src f)).
  Notation insert := (fun p s => add_tunable (Some (fst p)) (Some (snd p)) s).

  Lemma renamed_perm f g : In f L0 -> In g L0 -> Permutation (map rho (f_vars (r_h src g))) (map rho (f_vars (r_h src f))) -> Permutation (f_vars (r_h src g)) (f_vars (r_h src f)).
  Proof.
    intros Jf Jg P. apply Permutation_map_inv in P as (l & E & P). assert (Q : f_vars (r_h src g) = l).
    { apply rho_map_inj; auto. apply (fac_vars g Jg). intros x Jx. apply (proj1 (fac_vars f Jf)). eapply Permutation_in; [symmetry; exact P|exact Jx]. }
    rewrite Q. symmetry; auto.
  Qed.
  Lemma B_set f : In f L0 -> g_set (f_group (B f)) = group_of f.
  Proof. intros J. destruct (B_spec f J) as (_ & -> & _). reflexivity. Qed.
  Lemma group_keys f : In f L0 -> NoDup (map vkey (group_of f)).
  Proof. intros J. unfold group_of. rewrite rho_keys; auto. apply fac_keys. apply (fac_vars f J). Qed.

  Lemma share_step done s old f p rest g q w : part done s -> clus_of s (old ++ (f :: p) :: rest) -> rreach h0 t0 alert s ->
    tunes_src f -> tunes_src g -> ~ In g done -> (forall c x, In c old -> In x c -> tunes_src x /\ ~ Permutation (f_vars (r_h src x)) (f_vars (r_h src f))) ->
    (forall x, In x (f :: p ++ [g]) -> tunes_src x /\ f_exp (r_h src x) = Some w) -> pending s (f, g) q ->
    exists s', insert q s = Ret tt s' /\ part (done ++ [g]) s' /\ clus_of s' (old ++ (f :: p ++ [g]) :: rest) /\ rreach h0 t0 alert s' /\ grow s s'.
  Proof.
    intros PA CL R Tf Tg Ng UN WS (TW & LQ & GQ). cbn [fst snd] in *.
    unfold clus_of in CL. apply Forall2_app_inv_l in CL as (ds & l & FO & FL & EC). inversion FL as [|? d ? dr FC FR]; subst.
    assert (NK : ~ In (fst q) (g_all (r_g s))). { eapply not_inserted; eauto. apply TW. }
    destruct (add_share done s g (fst q) (snd q) ds d dr (rnd w) PA (tunes_plan g Tg) Ng TW LQ NK EC) as (s1 & E1 & P1 & C1 & G1 & H1).
    - intros d' Jd. destruct (F2_in_r _ _ _ FO d' Jd) as (c & Jc & Q). apply existsb_all_false. intros k Jk. destruct (F2_in_r _ _ _ Q k Jk) as (x & Jx & (TG & _) & _).
      destruct (UN c x Jc Jx) as [Tx NP]. rewrite TG, B_set, GQ by (apply tunes_in; auto). destruct (vset_eqb (group_of x) (group_of f)) eqn:Z; auto. exfalso. apply NP.
      apply vset_eqb_perm in Z; try (apply group_keys; apply tunes_in; auto). apply renamed_perm; auto; apply tunes_in; auto.
    - inversion FC as [|? k ? d2 ((TG & _) & _) ?]; subst. unfold tests. cbn [existsb]. rewrite TG, B_set, GQ by (apply tunes_in; auto).
      assert (Z : vset_eqb (group_of f) (group_of f) = true). { apply vset_eqb_perm; try (apply group_keys; apply tunes_in; auto). auto. }
      rewrite Z. reflexivity.
    - intros k Jk. destruct (F2_in_r _ _ _ FC k Jk) as (x & Jx & _ & -> & _). assert (Jx' : In x (f :: p ++ [g])) by (rewrite app_comm_cons; apply in_or_app; auto).
      destruct (WS x Jx') as [Tx Wx]. destruct (B_spec x (tunes_in x Tx)) as (_ & _ & -> & _). rewrite Wx. reflexivity.
    - destruct (WS g) as [_ Wg]. { right. apply in_or_app; right; left; auto. } destruct (B_spec g (tunes_in g Tg)) as (_ & _ & -> & _). rewrite Wg. reflexivity.
    - exists s1. split; auto. split; auto.
      assert (TX : forall a b, ttwin s a b -> ttwin s1 a b) by (intros a b; apply Plan.ttwin_ext; auto).
      split. { unfold clus_of. rewrite C1. apply Forall2_app.
        - eapply F2_mono; [|exact FO]. intros c d' _ _. apply F2_mono; auto.
        - constructor. rewrite app_comm_cons. apply Forall2_app. eapply F2_mono; [|exact FC]; auto. constructor; auto.
          eapply F2_mono; [|exact FR]. intros c d' _ _. apply F2_mono; auto. }
      split; auto. eapply reach_tun; [exact R|apply (pa_blank _ _ _ _ _ _ _ PA)| |exact E1]. split; auto.
      destruct TW as (_ & -> & _). destruct (tunes_plan g Tg) as [_ (w' & ->)]. discriminate.
  Qed.

  Lemma src_weights c : In c cl -> exists w, forall x, In x c -> tunes_src x /\ f_exp (r_h src x) = Some w.
  Proof.
    intros J. pose proof (ch_r _ _ CS) as RS. destruct c as [|f r]. { exfalso. apply (ri_ne _ RS _ J). auto. }
    assert (TU : forall g, In g (f :: r) -> tunes_src g) by (intros g Jg; apply in_concat; eauto).
    destruct (tunable_exp P0 src CS f (TU f (or_introl eq_refl))) as (w & Ew). exists w. intros x Jx. split; auto.
    rewrite <- Ew. apply (ri_eq _ RS _ _ _ J); simpl; auto.
  Qed.

  Lemma inner_ok old f rest w r : forall p done s pend cum,
    cl = old ++ (f :: p ++ r) :: rest -> (forall x, In x (f :: p ++ r) -> tunes_src x /\ f_exp (r_h src x) = Some w) ->
    part done s -> clus_of s (old ++ (f :: p) :: map (firstn 1) rest) -> rreach h0 t0 alert s -> NoDup r -> (forall g, In g r -> ~ In g done) ->
    Forall2 (pending s) (map (pair f) r ++ pend) cum ->
    exists s' cum', ofold insert cum s = ofold insert cum' s' /\ part (done ++ r) s' /\ clus_of s' (old ++ (f :: p ++ r) :: map (firstn 1) rest) /\
      rreach h0 t0 alert s' /\ Forall2 (pending s') pend cum'.
  Proof.
    induction r as [|g r IH]; intros p done s pend cum EQ WS PA CL R ND DJ PE.
    - exists s, cum. rewrite !app_nil_r. auto 10.
    - cbn [map app] in PE. inversion PE as [|? q ? cum1 PQ PE']; subst. cbn [ofold]. inversion ND as [|? ? NI ND']; subst.
      assert (NE : p ++ g :: r <> []) by (destruct p; discriminate).
      destruct (share_step done s old f p (map (firstn 1) rest) g q w PA CL R) as (s1 & E1 & P1 & C1 & R1 & G1); auto.
      + apply WS. left; auto.
      + apply WS. right. apply in_or_app. right. left; auto.
      + apply DJ. left; auto.
      + intros c x Jc Jx. split.
        * apply in_concat. exists c. split; auto. rewrite EQ. apply in_or_app; auto.
        * eapply clear; eauto.
      + intros x Jx. apply WS. rewrite app_comm_cons in *. apply in_app_or in Jx as [Jx|[<-|[]]]; apply in_or_app; auto. right. left; auto.
      + rewrite E1. cbn [obind]. destruct (IH (p ++ [g]) (done ++ [g]) s1 pend cum1) as (s2 & cum2 & E2 & P2 & C2 & R2 & Q2); auto.
        * rewrite <- app_assoc. exact EQ.
        * rewrite <- app_assoc. exact WS.
        * intros x Jx Q. apply in_app_or in Q as [Q|[<-|[]]]; auto. apply (DJ x); auto. right; auto.
        * eapply F2_mono; [|exact PE']. intros a b _ _. apply pending_grow; auto.
        * exists s2, cum2. rewrite <- app_assoc in P2, C2. auto.
  Qed.
  Lemma outer_ok rest : forall old done s cum, cl = old ++ rest -> part done s -> clus_of s (old ++ map (firstn 1) rest) -> rreach h0 t0 alert s ->
    (forall g, In g (concat (map (skipn 1) rest)) -> ~ In g done) -> Forall2 (pending s) (flat_map pairs rest) cum ->
    exists s', ofold insert cum s = Ret tt s' /\ part (done ++ concat (map (skipn 1) rest)) s' /\ clus_of s' cl /\ rreach h0 t0 alert s'.
  Proof.
    induction rest as [|c rest IH]; intros old done s cum EQ PA CL R DJ PE.
    - cbn [flat_map] in PE. inversion PE; subst. exists s. cbn [map concat] in *. rewrite !app_nil_r in *. rewrite EQ. auto.
    - pose proof (ch_r _ _ CS) as RS. assert (Jc : In c cl) by (rewrite EQ; apply in_or_app; right; left; auto).
      destruct c as [|f r]. { exfalso. apply (ri_ne _ RS _ Jc). auto. }
      destruct (src_weights _ Jc) as (w & WS). cbn [flat_map pairs] in PE. cbn [map concat skipn] in *.
      assert (NC : NoDup (concat cl)) by apply (ri_cls _ RS). rewrite EQ, concat_app in NC. cbn [concat] in NC. apply NoDup_app_parts in NC as (_ & NC).
      apply NoDup_app_parts in NC as NC'. destruct NC' as (NCf & _). inversion NCf as [|? ? NIf NCr]; subst.
      destruct (inner_ok old f rest w r [] done s (flat_map pairs rest) cum) as (s1 & cum1 & E1 & P1 & C1 & R1 & Q1); auto.
      + intros g Jg. apply DJ. apply in_or_app; auto.
      + rewrite E1. destruct (IH (old ++ [f :: r]) (done ++ r) s1 cum1) as (s2 & E2 & P2 & C2 & R2); auto.
        * rewrite <- app_assoc. exact EQ.
        * rewrite <- app_assoc. exact C1.
        * intros g Jg Q. apply in_app_or in Q as [Q|Q]. apply (DJ g); auto. apply in_or_app; auto.
          apply (NoDup_split_app _ _ NC g). right; auto. clear - Jg. apply in_concat in Jg as (x & Jx & Jg). apply in_map_iff in Jx as (y & <- & Jy). apply in_concat. exists y. split; auto.
          rewrite <- (firstn_skipn 1 y). apply in_or_app; auto.
        * exists s2. rewrite <- app_assoc in P2. auto.
  Qed.
End Import.

(** {1 Evidences} *)
Section Named.
  Context {N : num} (OK : num_ok N).
  Notation rst := (rst (N:=N)).
  Implicit Types s : rst.
  Lemma named_evidences e ps : env_ok e -> forall s, coh True s -> NoDup (map vname (g_vars (r_g s))) ->
    (forall v k, In (v, k) ps -> In v (g_vars (r_g s)) /\ k < vsize v) -> NoDup (map fst ps) ->
    exists g, ofold (fun p s => on_g (fun g => set_evidence_name (r_h s) e g (fst p) (snd p)) s) (map (fun p => (vname (fst p), snd p)) ps) s = Ret tt (set_g s g) /\
      (forall h top, rreach h top alert s -> rreach h top alert (set_g s g)) /\ coh True (set_g s g) /\
      g_vars g = g_vars (r_g s) /\ g_all g = g_all (r_g s) /\
      (forall v k, In (v, k) ps -> sp_ev (contents (set_g s g)) (vkey v) = Some k) /\
      (forall v, In v (g_vars (r_g s)) -> ~ In v (map fst ps) -> sp_ev (contents (set_g s g)) (vkey v) = sp_ev (contents s) (vkey v)).
  Proof.
    intros E. induction ps as [|[v k] ps IH]; intros s C NM KN ND.
    - exists (r_g s). assert (Q : set_g s (r_g s) = s) by (destruct s; auto). rewrite Q. cbn [map ofold]. split; auto. split; auto. split; auto. split; auto. split; auto.
      split; auto. intros v k [].
    - cbn [map ofold fst snd]. destruct (KN v k (or_introl eq_refl)) as [Jv Lk].
      assert (FV : find_variable (r_g s) (vname v) = Ok v).
      { unfold find_variable. change (fun v0 => String.eqb (vname v0) (vname v)) with (named (vname v)). rewrite (find_named _ NM _ v); auto. intros x; auto. }
      destruct (set_does (r_h s) (coh_solid _ _ C) (r_g s) (contents s) e v k (ch_inv _ _ C) (coh_abs _ _ C) E) as (g & Eg & IV & AB & CL).
      assert (KNv : sp_known (contents s) v = true). { apply sp_known_in. apply in_map. auto. }
      apply Nat.ltb_lt in Lk. unfold sp_set_ev in Eg, AB. rewrite Lk, KNv in Eg, AB. cbn [andb fst snd] in Eg, AB.
      assert (EN : on_g (fun g => set_evidence_name (r_h s) e g (vname v) k) s = Ret tt (set_g s g)).
      { unfold on_g, set_evidence_name. rewrite FV. cbn [lift obind]. rewrite Eg. auto. }
      assert (ES : on_g (fun g => set_evidence (r_h s) e g v k) s = Ret tt (set_g s g)) by (unfold on_g; rewrite Eg; auto).
      rewrite EN. cbn [obind].
      assert (C1 : coh True (set_g s g)). { pose proof (set_ev_coh True s e v k C E) as Q. rewrite ES in Q. exact Q. }
      destruct (abs_same_spec _ _ _ AB (coh_abs _ _ C1)) as (_ & _ & SE).
      assert (GV : g_vars g = g_vars (r_g s)) by (rewrite (ab_vars _ _ AB); reflexivity).
      assert (GA : g_all g = g_all (r_g s)) by (rewrite (ab_all _ _ AB); reflexivity).
      assert (EVv : sp_ev (contents (set_g s g)) (vkey v) = Some k).
      { unfold contents. rewrite SE. unfold sp_set. cbn [sp_ev]. unfold upd_ev. cbn [vkey fst snd]. rewrite String.eqb_refl, Nat.eqb_refl. reflexivity. }
      assert (EVo : forall w, In w (g_vars (r_g s)) -> w <> v -> sp_ev (contents (set_g s g)) (vkey w) = sp_ev (contents s) (vkey w)).
      { intros w Jw NE. unfold contents at 1. rewrite SE. unfold sp_set. cbn [sp_ev]. unfold upd_ev.
        destruct (String.eqb (fst (vkey w)) (fst (vname v, vsize v)) && (snd (vkey w) =? snd (vname v, vsize v))) eqn:K; auto. exfalso. apply NE.
        apply andb_true_iff in K as [K1 _]. apply String.eqb_eq in K1. cbn [vkey fst] in K1. eapply name_inj; eauto. }
      cbn [map fst] in ND. inversion ND as [|? ? NI ND']; subst.
      destruct (IH (set_g s g) C1) as (g2 & E2 & R2 & C2 & V2 & A2 & EV2 & EO2); cbn [r_g set_g] in *.
      + rewrite GV. auto.
      + intros w j J. rewrite GV. apply KN. right; auto.
      + auto.
      + exists g2. rewrite E2. split; [reflexivity|]. split.
        { intros h top R. apply R2. eapply RR_ret with (e := e) (op := RGraph (OSet v k)); [exact R|reflexivity| |exact E|].
          - split; [split; [split; simpl; auto|intros n Q; discriminate Q]|exact Logic.I].
          - cbn [rcall]. unfold on_g, call, omap. rewrite Eg. cbn [obind]. reflexivity. }
        split; auto. split. congruence. split. congruence. split.
        * intros w j [Q|Q]; [|apply EV2; auto]. injection Q as <- <-. change (set_g s g2) with (set_g (set_g s g) g2).
          rewrite EO2; auto. rewrite GV. auto.
        * intros w Jw NW. change (set_g s g2) with (set_g (set_g s g) g2). rewrite EO2; [|rewrite GV; auto|intros Q; apply NW; right; auto].
          apply EVo; auto. intros ->. apply NW. left; auto.
  Qed.
End Named.

(** {1 Export, then import} *)
Section Round.
  Context {N : num} (OK : num_ok N).
  Notation rst := (rst (N:=N)).
  Variable fprint : N -> string.
  Variable atof : string -> N.
  Notation rnd := (rnd fprint atof).
  Hypothesis fprint_plain : forall x, plain (fprint x).
  Hypothesis rnd_zero : rnd n0 = n0.
  Hypothesis rnd_nonneg : forall x, (n0 <= x)%num -> (n0 <= rnd x)%num.
  Variable P0 : Prop.
  Variable src : rst.
  Hypothesis CS : coh P0 src.
  Hypothesis WR : Forall writable (g_vars (r_g src)).
  Hypothesis NM : NoDup (map vname (g_vars (r_g src))).
  Hypothesis NO : no_orphans src.
  Hypothesis AL : forall f, In f (g_all (r_g src)) -> In f (r_const src ++ concat (tunable_clusters src)).
  Variable h0 : nat -> func N.
  Variable t0 : nat.
  Hypothesis h0_built : forall f, built (h0 f).
  Variable next : nat.
  (** the orders of the exporter and of the importer *)
  Variables e e' : env.
  Hypothesis EO : env_ok e.
  Hypothesis EO' : env_ok e'.
  Variable et it : bool.
  Hypothesis ET : et = true \/ tunable_clusters src = [].

  Lemma observed_list : exists obs, map fst obs = observed_variables e (r_g src) /\
    rmap (fun a => let* v := node_var (r_g src) a in
                   match g_ev (r_g src) a with
                   | None => UB
                   | Some k => Ok (JObj (print_variable v ++ [("evidence"%string, JStr (written k))]))
                   end) (e_ord e (gsize (r_g src)) (keys (gsize (r_g src)) (g_ev (r_g src)))) = Ok (map (fun p => print_item (fst p, Some (snd p))) obs) /\
    forall v k, In (v, k) obs -> exists a, var_at (r_g src) a v /\ g_ev (r_g src) a = Some k.
  Proof.
    pose proof (observed_at e (r_g src) (r_h src) (proj1 (ch_inv _ _ CS)) EO) as F. unfold evidence_order in F.
    assert (KE : forall a, In a (e_ord e (gsize (r_g src)) (keys (gsize (r_g src)) (g_ev (r_g src)))) -> exists k, g_ev (r_g src) a = Some k).
    { intros a J. apply ord_In in J; auto. apply keys_In in J as (_ & Q). exact Q. }
    revert KE. induction F as [|a v l vs VA F IH]; intros KE.
    - exists []. repeat split; auto. intros v k [].
    - destruct (KE a (or_introl eq_refl)) as (k & Ek). destruct IH as (obs & E1 & E2 & E3). { intros b Jb. apply KE. right; auto. }
      exists ((v, k) :: obs). split. { cbn [map fst]. congruence. } split.
      { cbn [rmap]. rewrite (node_var_ok _ _ _ VA). cbn [rbind]. rewrite Ek. cbn [rbind]. rewrite E2. reflexivity. }
      intros w j [Q|Q]; [injection Q as <- <-; eauto|auto].
  Qed.

  Notation L0 := (g_all (r_g src)).
  Notation lc := (e_ord e 0 (r_const src)).
  Notation cl := (tunable_clusters src).


  Record imported (V : list var) (done : list nat) (s : rst) : Prop := {
    im_perm : Permutation V (g_vars (r_g src));
    im_done : Permutation done L0;
    im_facs : Forall2 (Plan.twin (B fprint atof src V next e') (place src t0 e) s) done (g_all (r_g s));
    im_vars : forall v, In v (g_vars (r_g s)) <-> In v (fresh next V);
    im_ev : forall v, In v V -> sp_ev (contents s) (vkey v) = sp_ev (contents src) (vkey v);
    im_heap : forall f, f < t0 -> r_h s f = h0 f;
    im_coh : coh True s;
    im_reach : rreach h0 t0 alert s
  }.

  Lemma rmap_forall2 {X Y} (f : X -> res Y) (R : X -> Y -> Prop) l : (forall x, In x l -> exists y, f x = Ok y /\ R x y) -> exists ys, rmap f l = Ok ys /\ Forall2 R l ys.
  Proof.
    induction l as [|x l IH]; intros H. exists []. auto. destruct (H x (or_introl eq_refl)) as (y & E1 & Ry).
    destruct IH as (ys & E2 & F). { intros z J. apply H. right; auto. } exists (y :: ys). cbn [rmap]. rewrite E1. cbn [rbind]. rewrite E2. auto.
  Qed.
  Lemma F2_concat {X Y} (R : X -> Y -> Prop) l m : Forall2 (Forall2 R) l m -> Forall2 R (concat l) (concat m).
  Proof. induction 1; simpl; auto. apply Forall2_app; auto. Qed.
  Lemma evs_obs hs obs : evs (map (fun v => (v, None)) hs ++ map (fun p => (fst p, Some (snd p))) obs) = map (fun p => (vname (fst p), snd p)) obs.
  Proof.
    unfold evs. rewrite flat_map_app. assert (Z : flat_map (fun p : var * option nat => match snd p with Some k => [(vname (fst p), k)] | None => [] end) (map (fun v => (v, None)) hs) = []).
    { induction hs; simpl; auto. } rewrite Z. cbn [app]. clear Z. induction obs as [|p r IH]; simpl; auto. f_equal. exact IH.
  Qed.

  Lemma order_perm : Permutation (order src e) L0.
  Proof.
    pose proof (ch_r _ _ CS) as RS. apply NoDup_Permutation.
    - apply (order_nd P0 src CS); auto.
    - apply RS.
    - intros x. split. apply (order_in P0 src CS); auto. intros J. apply AL in J. apply in_app_or in J as [J|J]; apply in_or_app; auto.
      left. eapply Permutation_in; [symmetry; apply (proj1 EO 0 (r_const src))|exact J].
  Qed.

  Lemma round_trip : (it = true -> forall old f r rest c g, cl = old ++ (f :: r) :: rest -> r <> [] -> In c old -> In g c -> ~ Permutation (f_vars (r_h src g)) (f_vars (r_h src f))) ->
    exists j s V done, export_json fprint e et src = Ok j /\ import_json atof e' it next j (r_empty h0 t0) = Ret tt s /\ imported V done s /\
      (if it then Forall2 (Forall2 (Plan.ttwin (B fprint atof src V next e') (place src t0 e) s)) cl (tunable_clusters s) else tunable_clusters s = []).
  Proof.
    intros CL. pose proof (ch_r _ _ CS) as RS. destruct observed_list as (obs & O1 & O2 & O3).
    set (hs := hidden_variables e (r_g src)). set (V := hs ++ map fst obs).
    assert (VP : Permutation V (g_vars (r_g src))).
    { unfold V. rewrite O1. apply (partition_inv (r_h src) (r_g src) e); auto. apply (ch_inv _ _ CS). }
    assert (VW : Forall writable V). { apply Forall_forall. intros v J. rewrite Forall_forall in WR. apply WR. eapply Permutation_in; eauto. }
    assert (VN : NoDup (map vname V)). { eapply Permutation_NoDup; [|exact NM]. apply Permutation_map. symmetry; auto. }
    assert (LEN : forall f, In f L0 -> incl (f_vars (r_h src f)) V /\ (length (f_vars (r_h src f)) = 1 \/ length (f_vars (r_h src f)) = 2)).
    { intros f J. apply (fac_vars P0 src CS V VP f J). }
    assert (OI : forall f, In f (order src e) -> In f L0) by (apply (order_in P0 src CS); auto).
    assert (TU : forall c f, In c cl -> In f c -> In f L0 /\ exists w, f_exp (r_h src f) = Some w).
    { intros c f Jc Jf. assert (JC : In f (concat cl)) by (apply in_concat; eauto). split. apply OI. apply in_or_app; auto.
      apply (tunable_exp P0 src CS f JC). }
    (* what is written *)
    destruct (rmap_forall2 (fun f => print_const fprint (r_h src f)) (fun f j => import_potential atof e' (fresh next V) j = Ok (B fprint atof src V next e' f, IConst)) lc) as (cs & EC & FC).
    { intros f J. assert (Jf : In f L0) by (apply OI; apply in_or_app; auto). destruct (LEN f Jf) as [L1 L2].
      apply (print_const_ok OK fprint atof fprint_plain rnd_zero rnd_nonneg e' EO' V next VW VN (r_h src f)); auto. apply (fac_good OK P0 src CS). }
    destruct (rmap_forall2 (print_cluster fprint (r_h src)) (reads_cluster fprint atof src V next e') cl) as (ts & ETS & FT).
    { intros c Jc. destruct c as [|f r]. { exfalso. apply (ri_ne _ RS _ Jc). auto. }
      destruct (TU _ f Jc (or_introl eq_refl)) as [Jf (w & Ew)]. destruct (LEN f Jf) as [L1 L2].
      destruct (print_tunable_ok OK fprint atof fprint_plain rnd_zero rnd_nonneg e' EO' V next VW VN (r_h src f) (fac_good OK P0 src CS f) L1 L2 None w Ew) as (j & E1 & E2). { intros vs Q; discriminate Q. }
      destruct (rmap_forall2 (fun g => print_tunable fprint (Some (f_vars (r_h src f))) (r_h src g)) (reads_share fprint atof src V next e' f) r) as (js & E3 & E4).
      { intros g Jg. destruct (TU _ g Jc (or_intror Jg)) as [Jg' (wg & Eg)]. destruct (LEN g Jg') as [G1 G2].
        destruct (print_tunable_ok OK fprint atof fprint_plain rnd_zero rnd_nonneg e' EO' V next VW VN (r_h src g) (fac_good OK P0 src CS g) G1 G2 (Some (f_vars (r_h src f))) wg Eg) as (j2 & F1 & F2).
        { intros vs Q; injection Q as <-. split; auto. split; auto. apply (fac_keys OK P0 src CS). }
        exists j2. split; auto. }
      exists (j :: js). cbn [print_cluster]. rewrite E1. cbn [rbind]. rewrite E3. cbn [rbind]. split; auto. split; auto. }
    set (items := map (fun v => (v, None)) hs ++ map (fun p => (fst p, Some (snd p))) obs).
    set (j := JObj [("Variables"%string, jarr (map print_item items)); ("Potentials"%string, jarr (cs ++ concat ts))]).
    assert (EXP : export_json fprint e et src = Ok j).
    { unfold export_json. rewrite O2. cbn [rbind]. rewrite EC. cbn [rbind].
      assert (X : (if et then rmap (print_cluster fprint (r_h src)) cl else Ok []) = Ok ts).
      { destruct ET as [->|X]; [exact ETS|]. destruct et; [exact ETS|]. rewrite X in ETS. cbn [rmap] in ETS. exact ETS. }
      rewrite X. cbn [rbind]. unfold j, items. rewrite map_app, !map_map. fold hs. do 6 f_equal. }
    (* the variables that are read *)
    assert (IV : rfold import_variable (jiter (jarr (map print_item items))) (mkIV next [] []) = Ok (mkIV (next + length items) (fresh next V) (map (fun p => (vname (fst p), snd p)) obs))).
    { rewrite jiter_jarr, import_variables_ok; cbn [iv_next iv_vars iv_ev map app].
      - f_equal. f_equal.
        + f_equal. unfold items, V. rewrite map_app, !map_map. f_equal. rewrite map_id. reflexivity.
        + apply evs_obs.
      - unfold items. rewrite map_app, !map_map. cbn [fst]. unfold V in VN. rewrite map_app, map_map in VN. exact VN.
      - intros x [].
      - intros v o J. unfold items in J. rewrite Forall_forall in VW. apply in_app_or in J as [J|J]; apply in_map_iff in J as (p & Ep & J).
        + injection Ep as <- <-. split. apply VW. apply in_or_app; auto. intros k Q; discriminate Q.
        + injection Ep as <- <-. assert (W : writable (fst p)). { apply VW. apply in_or_app. right. apply in_map; auto. }
          split; auto. intros k Q. injection Q as <-. destruct p as [v k]. destruct (O3 v k J) as (a & Va & Ga).
          destruct (co_ev _ _ _ (proj1 (ch_inv _ _ CS)) a k Ga) as (v' & Va' & Lk). assert (v' = v) by (unfold var_at in *; congruence). subst v'.
          cbn [fst snd] in *. destruct W as (_ & _ & _ & W). unfold fits_int in *. lia. }
    (* the evidences are given last *)
    assert (FIN : forall done s, Plan.part h0 t0 (B fprint atof src V next e') L0 (place src t0 e) done s -> Permutation done L0 -> rreach h0 t0 alert s ->
      exists s', ofold (fun p s => on_g (fun g => set_evidence_name (r_h s) e' g (fst p) (snd p)) s) (permute (e_ord e' 1) (map (fun p => (vname (fst p), snd p)) obs)) s = Ret tt s' /\
        imported V done s' /\ r_h s' = r_h s /\ r_tuners s' = r_tuners s).
    { intros done s PA PD R. pose proof (pa_coh _ _ _ _ _ _ _ PA) as C.
      assert (BV : forall f, In f L0 -> f_vars (B fprint atof src V next e' f) = map (renamed (fresh next V)) (f_vars (r_h src f))).
      { intros f Jf. eapply B_vars; eauto. }
      assert (GV : forall v, In v (g_vars (r_g s)) <-> In v (fresh next V)).
      { intros w. rewrite (pa_vars _ _ _ _ _ _ _ PA). split.
        - intros (f & Jf & Jw). apply (Permutation_in _ PD) in Jf. rewrite BV in Jw by auto. apply in_map_iff in Jw as (v & <- & Jv).
          apply (rho_spec V next VN). apply (LEN f Jf); auto.
        - intros J. assert (Jm : In w (map (renamed (fresh next V)) V)). { rewrite (rho_vars V next VN). auto. }
          apply in_map_iff in Jm as (v & <- & Jv). destruct (NO v) as (f & Jf & Jvf). { eapply Permutation_in; eauto. }
          exists f. split. eapply Permutation_in; [symmetry; exact PD|exact Jf]. rewrite BV by auto. apply in_map; auto. }
      assert (GN : NoDup (map vname (g_vars (r_g s)))).
      { assert (ND : NoDup (g_vars (r_g s))). { apply NoDup_map_inv with (f := vkey). apply (proj1 (ch_inv _ _ C)). }
        assert (NV : NoDup (fresh next V)). { apply NoDup_map_inv with (f := vname). rewrite fresh_names. auto. }
        assert (PM : Permutation (g_vars (r_g s)) (fresh next V)) by (apply NoDup_Permutation; auto).
        eapply Permutation_NoDup; [apply Permutation_map; symmetry; exact PM|]. rewrite fresh_names. auto. }
      set (rho := renamed (fresh next V)).
      set (f2 := fun p : var * nat => (vname (fst p), snd p)). set (ps := map (fun p => (rho (fst p), snd p)) obs).
      assert (OV : forall v k, In (v, k) obs -> In v V). { intros v k J. apply in_or_app. right. apply (in_map fst) in J. exact J. }
      assert (E2 : map f2 ps = map f2 obs).
      { unfold ps. rewrite map_map. apply map_ext_in. intros [v k] J. unfold f2, rho. cbn [fst snd]. destruct (rho_spec V next VN v (OV v k J)) as (_ & -> & _). reflexivity. }
      assert (PP : Permutation (permute (e_ord e' 1) (map f2 ps)) (map f2 ps)) by (apply permute_perm; apply EO').
      rewrite <- E2. apply Permutation_map_inv in PP as (qs & Eq & Pq). rewrite Eq.
      assert (NF : NoDup (map fst obs)). { unfold V in VN. apply NoDup_map_inv in VN. apply NoDup_app_parts in VN. apply VN. }
      destruct (named_evidences e' qs EO' s C GN) as (g & Q & RR & C' & GV' & GA' & EV1 & EV2).
      { intros v k J. apply (Permutation_in _ (Permutation_sym Pq)) in J. unfold ps in J. apply in_map_iff in J as ([w k'] & Ew & J). cbn [fst snd] in Ew. injection Ew as <- <-.
        destruct (rho_spec V next VN w (OV w k' J)) as (R1 & R2 & R3). split. apply GV. exact R1. unfold rho. rewrite R3.
        destruct (O3 w k' J) as (a & Va & Ga). destruct (co_ev _ _ _ (proj1 (ch_inv _ _ CS)) a k' Ga) as (v' & Va' & Lk). assert (v' = w) by (unfold var_at in *; congruence). subst. exact Lk. }
      { eapply Permutation_NoDup; [apply Permutation_map; exact Pq|]. unfold ps. rewrite map_map. cbn [fst]. rewrite <- (map_map fst rho).
        apply NoDup_map_inv with (f := vname). rewrite map_map. erewrite map_ext_in with (g := vname).
        - unfold V in VN. rewrite map_app in VN. apply NoDup_app_parts in VN. apply VN.
        - intros v J. apply in_map_iff in J as ([w k] & <- & J). apply (rho_spec V next VN). apply (OV w k J). }
      exists (set_g s g). split; [exact Q|]. split; [|split; reflexivity]. constructor; auto.
      - cbn [r_g set_g]. rewrite GA'. apply (pa_facs _ _ _ _ _ _ _ PA).
      - cbn [r_g set_g]. rewrite GV'. exact GV.
      - intros v Jv. destruct (rho_spec V next VN v Jv) as (R1 & R2 & R3). fold rho in R1, R2, R3. assert (KV : vkey v = vkey (rho v)) by (unfold vkey; congruence).
        assert (Jv' : In v (g_vars (r_g src))) by (eapply Permutation_in; eauto). apply In_nth_error in Jv' as (a & Va).
        pose proof (ab_ev _ _ (coh_abs _ _ CS) a v Va) as X. change (spec_of (r_g src)) with (contents src) in X. rewrite <- X.
        destruct (in_dec Nat.eq_dec a (e_ord e (gsize (r_g src)) (keys (gsize (r_g src)) (g_ev (r_g src))))) as [Ja|Na].
        + assert (JO : In v (map fst obs)). { rewrite O1. pose proof (observed_at e (r_g src) (r_h src) (proj1 (ch_inv _ _ CS)) EO) as F. destruct (F2_in_l _ _ _ F a Ja) as (v' & J' & Va').
            assert (v' = v) by (unfold var_at in *; congruence). subst; auto. }
          apply in_map_iff in JO as ([v' k] & E' & JO). cbn [fst] in E'. subst v'. destruct (O3 v k JO) as (a' & Va' & Ga').
          assert (a' = a). { eapply (var_at_inj (r_g src) a' a v v); eauto. apply (proj1 (ch_inv _ _ CS)). } subst a'. rewrite Ga', KV. apply EV1.
          eapply Permutation_in; [exact Pq|]. unfold ps. apply in_map_iff. exists (v, k). auto.
        + assert (Ga : g_ev (r_g src) a = None). { destruct (g_ev (r_g src) a) eqn:G; auto. exfalso. apply Na. apply ord_In; auto. apply keys_In. split; eauto. apply var_at_lt in Va. auto. }
          rewrite Ga, KV, EV2.
          * apply (unobserved_ev True s _ (rho v) C). eapply coh_abs; eauto. apply (pa_blank _ _ _ _ _ _ _ PA).
          * apply GV. exact R1.
          * intros J. apply in_map_iff in J as ([w k] & Ew & J). cbn [fst] in Ew. subst w. apply (Permutation_in _ (Permutation_sym Pq)) in J. unfold ps in J.
            apply in_map_iff in J as ([w k'] & Ew & J). cbn [fst snd] in Ew. injection Ew as Ew <-. apply (rho_inj V next VN) in Ew; auto; [|apply (OV w k' J)]. subst w.
            destruct (O3 v k' J) as (a' & Va' & Ga'). assert (a' = a). { eapply (var_at_inj (r_g src) a' a v v); eauto. apply (proj1 (ch_inv _ _ CS)). } congruence.
      - apply (pa_heap _ _ _ _ _ _ _ PA). }
    (* the factors *)
    assert (ST : Plan.part h0 t0 (B fprint atof src V next e') L0 (place src t0 e) [] (r_empty h0 t0)) by (apply Plan.part_start; auto).
    assert (CONV : import_json atof e' it next j (r_empty h0 t0) =
      do (cum, s) <- import_all atof e' it (fresh next V) (cs ++ concat ts) [] (r_empty h0 t0) ;;
      do (_, s) <- ofold (fun p s => add_tunable (Some (fst p)) (Some (snd p)) s) cum s ;;
      ofold (fun p s => on_g (fun g => set_evidence_name (r_h s) e' g (fst p) (snd p)) s) (permute (e_ord e' 1) (map (fun p => (vname (fst p), snd p)) obs)) s).
    { unfold import_json, convert_json. assert (J1 : jindex j "Variables" = Ok (jarr (map print_item items))) by reflexivity. rewrite J1. cbn [rbind]. rewrite IV. cbn [lift obind iv_vars iv_ev].
      assert (J2 : jindex j "Potentials" = Ok (jarr (cs ++ concat ts))) by reflexivity. rewrite J2. cbn [lift obind]. rewrite jiter_jarr.
      destruct (import_all atof e' it (fresh next V) (cs ++ concat ts) [] (r_empty h0 t0)) as [cum s| | | |]; cbn [obind]; auto.
      destruct (ofold _ cum s); reflexivity. }
    pose proof (order_nd P0 src CS e EO) as OND. pose proof order_perm as OP.
    assert (FC' : Forall2 (reads_const fprint atof src V next e' it) lc cs).
    { eapply F2_mono; [|exact FC]. intros f x _ _ Q. exists IConst. auto. }
    destruct it eqn:IT.
    - destruct (consts_ok OK fprint atof fprint_plain rnd_zero rnd_nonneg P0 src CS V VP VW VN h0 t0 next e e' EO EO' true lc cs FC' [] (concat cl) (r_empty h0 t0) (concat ts) [] ST eq_refl)
        as (s1 & E1 & P1 & T1 & R1 & U1).
      { simpl. lia. } { constructor. } { reflexivity. }
      cbn [app] in P1, T1.
      destruct (clusters_ok OK fprint atof fprint_plain rnd_zero rnd_nonneg P0 src CS V VP VW VN h0 t0 next e e' EO EO' true eq_refl cl ts FT lc lc [] [] [] s1 P1 eq_refl T1 R1)
        as (s2 & cum & E2 & P2 & R2 & C2 & Q2).
      { unfold clus_of, tunable_clusters. rewrite U1. constructor. } { constructor. } { intros x; auto. }
      { intros f Jf Jl. unfold order in OND. eapply NoDup_split_app; eauto. }
      cbn [app] in C2, Q2.
      destruct (outer_ok OK fprint atof fprint_plain rnd_zero rnd_nonneg P0 src CS V VP VW VN h0 t0 next e e' EO EO' (CL eq_refl) cl [] (lc ++ concat (map (firstn 1) cl)) s2 cum eq_refl P2 C2 R2)
        as (s3 & E3 & P3 & C3 & R3); auto.
      { assert (PH : Permutation ((lc ++ concat (map (firstn 1) cl)) ++ concat (map (skipn 1) cl)) (order src e)).
        { unfold order. rewrite <- app_assoc. apply Permutation_app_head. apply Permutation_heads. }
        intros g Jg Jd. eapply (Permutation_NoDup (Permutation_sym PH)) in OND. eapply NoDup_split_app; eauto. }
      rewrite <- app_assoc in P3.
      destruct (FIN _ s3 P3) as (s4 & E4 & IM & H4 & T4); auto.
      { rewrite <- OP. unfold order. apply Permutation_app_head. apply Permutation_heads. }
      exists j, s4, V, (lc ++ concat (map (firstn 1) cl) ++ concat (map (skipn 1) cl)). split; auto. split.
      { rewrite CONV, E1, E2. cbn [obind]. rewrite E3. cbn [obind]. exact E4. }
      split; auto. unfold clus_of, tunable_clusters in *. rewrite T4. eapply F2_mono; [|exact C3]. intros c d _ _. apply F2_mono.
      intros f k _ _. apply Plan.ttwin_ext. rewrite H4. auto.
    - assert (FT' : Forall2 (reads_const fprint atof src V next e' false) (concat cl) (concat ts)).
      { apply F2_concat. eapply F2_mono; [|exact FT]. intros c x _ _ Q. destruct c as [|f r]; [contradiction|]. destruct x as [|y x]; [contradiction|]. destruct Q as [Q1 Q2].
        constructor. { exists ITun. auto. } eapply F2_mono; [|exact Q2]. intros g z _ _ Q. eexists. split; [exact Q|auto]. }
      destruct (consts_ok OK fprint atof fprint_plain rnd_zero rnd_nonneg P0 src CS V VP VW VN h0 t0 next e e' EO EO' false (order src e) (cs ++ concat ts)) with (pre := @nil nat) (suf := @nil nat) (s := r_empty h0 t0) (more := @nil json) (cum := @nil (nat * list var))
        as (s1 & E1 & P1 & T1 & R1 & U1); auto.
      { apply Forall2_app; auto. } { rewrite app_nil_r. reflexivity. } { constructor. }
      cbn [app] in P1. rewrite app_nil_r in E1.
      destruct (FIN _ s1 P1 OP R1) as (s2 & E2 & IM & H2 & T2).
      exists j, s2, V, (order src e). split; auto. split.
      { rewrite CONV, E1. cbn [Json.import_all obind ofold]. exact E2. }
      split; auto. unfold tunable_clusters. rewrite T2, U1. reflexivity.
  Qed.
End Round.
