(** Histories of calls on a random field: const and tunable factors, weights,
    gradients, evidences, queries *)
From Coq Require Import String List Arith Bool Lia Permutation.
From Verif Require Import Res Num Categoric Func FuncProofs GroupProofs FactorProofs FactorApi Special SpecialProofs
  Graph GraphLemmas Clusters Belief Query GraphInv EvidInv BeliefInv GraphSpec Hist Train.
Import ListNotations.
Open Scope nat_scope.

(** {1 What the evidences and the queries never change} *)
Section Static.
  Context {N : num}.
  Variable H : nat -> func N.
  Notation gst := (gst (N:=N)).
  Implicit Types s : gst.

  Definition same s s' : Prop := g_vars s' = g_vars s /\ g_all s' = g_all s.
  Definition ostat {B} s (o : out gst B) : Prop := match o with Ret _ s' | Thr s' => same s s' | _ => True end.

  Lemma same_refl s : same s s.
  Proof. split; auto. Qed.
  Lemma same_trans s t u : same s t -> same t u -> same s u.
  Proof. intros [A B] [C D]. split; congruence. Qed.
  Lemma ostat_bind {B D} s (o : out gst B) (f : B -> gst -> out gst D) :
    ostat s o -> (forall b s', same s s' -> ostat s (f b s')) -> ostat s (obind o f).
  Proof. destruct o; simpl; auto. Qed.
  Lemma ostat_lift {B} s s' (r : res B) : same s s' -> ostat s (lift r s').
  Proof. destruct r; simpl; auto. Qed.
  Lemma ostat_fold {B} (f : B -> gst -> out gst unit) l : forall s s', same s s' ->
    (forall b s', same s s' -> ostat s (f b s')) -> ostat s (ofold f l s').
  Proof. induction l as [|b l IH]; simpl; intros s s' E F; auto. apply ostat_bind; auto. Qed.

  Lemma set_act_msg_stat s s' a b m : same s s' -> ostat s (set_act_msg s' a b m).
  Proof. intros E. unfold set_act_msg. destruct (act s' a b); simpl; auto. Qed.
  Lemma set_dis_msg_stat s s' a b m : same s s' -> ostat s (set_dis_msg s' a b m).
  Proof. intros E. unfold set_dis_msg. destruct (dis s' a b); simpl; auto. Qed.

  Ltac st :=
    repeat first
      [ assumption | exact I
      | match goal with
        | |- ostat _ (obind _ _) => apply ostat_bind; [|intros]
        | |- ostat _ (lift _ _) => apply ostat_lift; assumption
        | |- ostat _ (ofold _ _ _) => apply ostat_fold; [assumption|intros]
        | |- ostat _ (set_act_msg _ _ _ _) => apply set_act_msg_stat; assumption
        | |- ostat _ (set_dis_msg _ _ _ _) => apply set_dis_msg_stat; assumption
        end
      | match goal with |- ostat _ ((let (_, _) := ?x in _) _) => destruct x end
      | match goal with |- ostat _ (match ?x with _ => _ end) => destruct x end
      | match goal with |- ostat _ (if ?x then _ else _) => destruct x end ].

  Lemma update_merged_stat e a s s' : same s s' -> ostat s (update_merged H e a s').
  Proof. intros E. unfold update_merged. st. Qed.
  Lemma topo_loop_stat e nodes : forall acc s s', same s s' -> ostat s (topo_loop H e nodes acc s').
  Proof. induction nodes; simpl; intros acc s s' E; st. apply update_merged_stat; auto. apply IHnodes; auto. Qed.
  Lemma update_message_stat k t s s' : same s s' -> ostat s (update_message H k t s').
  Proof. intros E. unfold update_message. st. Qed.
  Lemma reset_messages_stat e s s' : same s s' -> ostat s (reset_messages e s').
  Proof. intros E. unfold reset_messages. st. Qed.
  Lemma mp_loop_stat n e p k : forall l s s', same s s' -> ostat s (mp_loop H n e p k l s').
  Proof.
    induction n; simpl; intros l s s' E; destruct l; simpl; auto; st.
    apply update_message_stat; auto. apply IHn; auto.
  Qed.
  Lemma message_passing_stat e p k i s s' : same s s' -> ostat s (message_passing H e p k i s').
  Proof. intros E. unfold message_passing. st. apply mp_loop_stat; auto. Qed.
  Lemma loopy_tasks_stat k l : forall v s s', same s s' -> ostat s (loopy_tasks H k l v s').
  Proof. induction l; simpl; intros v s s' E; st. apply update_message_stat; auto. apply IHl; auto. Qed.
  Lemma loopy_sweep_stat e p k l : forall v s s', same s s' -> ostat s (loopy_sweep H e p k l v s').
  Proof. induction l; simpl; intros v s s' E; st. apply loopy_tasks_stat; auto. apply IHl; auto. Qed.
  Lemma loopy_iter_stat n e p k bs : forall s s', same s s' -> ostat s (loopy_iter H n e p k bs s').
  Proof. induction n; simpl; intros s s' E; st. apply loopy_sweep_stat; auto. apply IHn; auto. Qed.
  Lemma loopy_propagate_stat e p k i s s' : same s s' -> ostat s (loopy_propagate H e p k i s').
  Proof. intros E. unfold loopy_propagate, set_ones. st. apply loopy_iter_stat; auto. Qed.
  Lemma prepare_stat e i s s' : same s s' -> ostat s (prepare H e i s').
  Proof. intros E. unfold prepare, update_connectivity. st. apply update_merged_stat; auto. apply topo_loop_stat; auto. Qed.
  Lemma prop_loop_stat e p k is : forall r s s', same s s' -> ostat s (prop_loop H e p k is r s').
  Proof.
    induction is; simpl; intros r s s' E; st. apply prepare_stat; auto. apply message_passing_stat; auto. apply IHis; auto.
    apply loopy_propagate_stat; auto. apply IHis; auto.
  Qed.
  Lemma propagate_stat e k s s' : same s s' -> ostat s (propagate H e k s').
  Proof. intros E. unfold propagate. st. apply reset_messages_stat; auto. apply prop_loop_stat; auto. Qed.
  Lemma set_pool_stat n s s' : same s s' -> ostat s (set_pool_size n s').
  Proof. intros E. unfold set_pool_size. st. Qed.
  Lemma scoped_stat {A} n (body : gst -> out gst A) s s' : same s s' -> (forall s', same s s' -> ostat s (body s')) -> ostat s (scoped_pool n body s').
  Proof.
    intros E F. unfold scoped_pool. apply ostat_bind. apply set_pool_stat; auto. intros _ t E'. specialize (F t E').
    destruct (body t); simpl in *; auto.
  Qed.
  Lemma check_stat e k n s s' : same s s' -> ostat s (check_propagation H e k n s').
  Proof. intros E. unfold check_propagation. st. apply scoped_stat; auto. intros. apply propagate_stat; auto. Qed.
  Lemma set_evidence_stat e v k s s' : same s s' -> ostat s (set_evidence H e s' v k).
  Proof. intros E. unfold set_evidence, send_evidence, disable_known. st; destruct (length _ =? 1); assumption. Qed.
  Lemma remove_stat_ e v s s' : same s s' -> ostat s (remove_evidence_ e v s').
  Proof. intros E. unfold remove_evidence_. st. Qed.
  Lemma remove_stat e v s s' : same s s' -> ostat s (remove_evidence e s' v).
  Proof. intros E. unfold remove_evidence. st. apply remove_stat_; auto. Qed.
  Lemma removes_stat e vs s s' : same s s' -> ostat s (remove_evidences e s' vs).
  Proof.
    intros E. unfold remove_evidences. destruct vs as [|v vs]; auto.
    apply ostat_bind; [|intros; assumption]. apply ostat_fold; auto. intros. apply remove_stat_; auto.
  Qed.
  Lemma remove_all_stat e s s' : same s s' -> ostat s (remove_all_evidences e s').
  Proof. intros E. unfold remove_all_evidences. st. apply remove_stat_; auto. Qed.
  Lemma marginal_query_stat e k v n s s' : same s s' -> ostat s (marginal_query H e k v n s').
  Proof. intros E. unfold marginal_query. st. apply check_stat; auto. Qed.
  Lemma joint_stat e g n s s' : same s s' -> ostat s (get_joint H e g n s').
  Proof. intros E. unfold get_joint. st. apply check_stat; auto. Qed.

  Definition is_add (op : gop) : bool := match op with OAdd _ => true | _ => false end.

  Lemma call_stat e op s : is_add op = false -> ostat s (call H e op s).
  Proof.
    intros A. pose proof (same_refl s) as E. destruct op; try discriminate A; simpl call; unfold omap;
      try (apply ostat_bind; [|intros; assumption]); auto;
      unfold set_evidence_name, remove_evidence_name, remove_evidences_names, get_marginal_name, get_map_name, get_marginal,
        get_map, get_hidden_map, get_joint_names; st;
      auto using set_evidence_stat, remove_stat, removes_stat, remove_all_stat, marginal_query_stat, check_stat, joint_stat.
    apply scoped_stat; auto. intros. apply propagate_stat; auto.
  Qed.

  (** an insertion *)
  Lemma add_fields s d :
    match add_distribution H s d with
    | Ret _ s' => exists f, d = Some f /\ ~ In f (g_all s) /\ g_all s' = g_all s ++ [f] /\ exists l, g_vars s' = g_vars s ++ l
    | Thr s' => g_all s' = g_all s /\ exists l, g_vars s' = g_vars s ++ l
    | _ => True
    end.
  Proof.
    destruct d as [f|]; simpl; [|split; auto; exists []; rewrite app_nil_r; auto].
    destruct (mem f (g_all s)) eqn:M. { simpl. split; auto. exists []. rewrite app_nil_r. auto. }
    apply mem_false in M.
    set (grown := fun t : gst => g_all t = g_all s /\ exists l, g_vars t = g_vars s ++ l).
    set (og := fun (B : Type) (o : out gst B) => match o with Ret _ t | Thr t => grown t | _ => True end).
    assert (G0 : grown (reset_belief s)) by (split; auto; exists []; rewrite app_nil_r; auto).
    assert (GB : forall B D (o : out gst B) (k : B -> gst -> out gst D), og _ o -> (forall b t, grown t -> og _ (k b t)) -> og _ (obind o k)).
    { intros B D o k. destruct o; simpl; auto. }
    assert (GL : forall B (r : res B) t, grown t -> og _ (lift r t)) by (intros B r t G; destruct r; simpl; auto).
    assert (GF : forall v t, grown t -> og _ (find_or_make t v)).
    { intros v t G. unfold find_or_make. destruct (locate t v) as [[a l]|].
      - apply GB; auto. intros w u G'. destruct (var_peqb v w); auto.
      - simpl. destruct G as [G1 [l G2]]. split; auto. simpl. exists (l ++ [v]). rewrite G2, app_assoc. auto. }
    assert (GS : forall o : out gst unit, og _ o -> match (do (_, t) <- o ;; Ret tt (set_all t (g_all t ++ [f]))) with
       | Ret _ s' => exists f0, Some f = Some f0 /\ ~ In f0 (g_all s) /\ g_all s' = g_all s ++ [f0] /\ exists l, g_vars s' = g_vars s ++ l
       | Thr s' => g_all s' = g_all s /\ exists l, g_vars s' = g_vars s ++ l | _ => True end).
    { intros o G. destruct o; simpl in *; auto. destruct G as [G1 G2]. exists f. rewrite G1. splits; auto. }
    apply GS. destruct (length (fvars H f)) as [|[|[|]]]; simpl; auto.
    - unfold add_unary. apply GB; auto. intros v t G. apply GB; auto. intros [a l] u G'. simpl. exact G'.
    - unfold add_binary. apply GB; auto. intros va t G. apply GB; auto. intros vb u G'. apply GB; auto. intros [a la] w G2.
      apply GB; auto. intros [b lb] x G3. destruct (is_some (act x a b) || is_some (dis x a b)); [exact G3|].
      unfold connect, hybrid_insertion. destruct la, lb.
      + apply GB; auto. intros ci y G4. destruct (_ =? _). exact G4. apply GB; auto.
      + apply GB; auto. intros z y G4. apply GB; auto. intros m y2 G5. apply GB; auto. unfold set_dis_msg. destruct (dis y2 _ _); simpl; auto.
      + apply GB; auto. intros z y G4. apply GB; auto. intros m y2 G5. apply GB; auto. unfold set_dis_msg. destruct (dis y2 _ _); simpl; auto.
      + exact G3.
  Qed.
End Static.

(** {1 Histories} *)
Section RHist.
  Context {N : num} (OK : num_ok N).
  Notation gst := (gst (N:=N)).
  Notation rst := (rst (N:=N)).
  Implicit Types s : rst.

  (** the calls on a random field. A factor object is referred to by its address *)
  Inductive rop :=
  | RNew (f : func N)                                  (** the user makes a factor object *)
  | RConst (d : option nat)                            (** addConstFactor; [None]: null pointer *)
  | RCopyConst (f : nat)                               (** copyConstFactor *)
  | RAbsorbConst (copy : bool) (l : list nat)          (** absorbConstFactors *)
  | RTun (d : option nat) (share : option (list var))  (** addTunableFactor *)
  | RCopyTun (f : nat) (share : option (list var))     (** copyTunableFactor *)
  | RAbsorbTun (copy : bool) (l : list nat)            (** absorbTunableFactors *)
  | RAbsorbClusters (copy : bool) (cs : list (list nat))  (** absorbTunableClusters *)
  | RWeights (ws : list N)                             (** setWeights *)
  | ROnes                                              (** set_ones *)
  | RGradient (it : titer) (threads : nat)             (** getWeightsGradient *)
  | RGraph (op : gop).                                 (** the other calls, see [gop] *)

  Definition rmapo {A} (f : A -> answer (N:=N)) (o : out rst A) : out rst answer := do (a, s) <- o ;; Ret (f a) s.
  Definition runit (o : out rst unit) : out rst answer := rmapo (fun _ => AUnit) o.

  Definition rcall (e : env) (op : rop) (s : rst) : out rst answer :=
    match op with
    | RNew f => Ret AUnit (snd (alloc s f))
    | RConst d => runit (add_const d s)
    | RCopyConst f => runit (copy_const f s)
    | RAbsorbConst copy l => runit (absorb_const l copy s)
    | RTun d share => runit (add_tunable d share s)
    | RCopyTun f share => runit (copy_tunable f share s)
    | RAbsorbTun copy l => runit (absorb_tunable copy l s)
    | RAbsorbClusters copy cs => runit (absorb_clusters copy cs s)
    | RWeights ws => runit (set_weights ws s)
    | ROnes => runit (set_all_ones s)
    | RGradient it n => rmapo ADist (weights_gradient e it n s)
    | RGraph op => on_g (call (r_h s) e op) s
    end.

  (** what the types of C++ ensure: the addresses are those of existing objects,
      [FactorExponential]s for the tunable ones *)
  Definition object s (f : nat) : Prop := f < r_top s.
  Definition expo s (f : nat) : Prop := f < r_top s /\ f_exp (r_h s f) <> None.
  Definition rok (op : rop) s : Prop :=
    match op with
    | RNew f => built f
    | RConst None => True
    | RConst (Some f) => object s f
    | RCopyConst f => object s f
    | RAbsorbConst _ l => forall f, In f l -> object s f
    | RTun None _ => True
    | RTun (Some f) _ => expo s f
    | RCopyTun f _ => expo s f
    | RAbsorbTun _ l => forall f, In f l -> expo s f
    | RAbsorbClusters _ cs => forall c f, In c cs -> In f c -> expo s f
    | RGraph op => is_add op = false
    | _ => True
    end.

  (** the states reached from a new model, when the objects [0 .. top - 1] exist.
      [G] restricts the calls. *)
  Inductive rreach (h : nat -> func N) (top : nat) (G : rst -> rop -> Prop) : rst -> Prop :=
  | RR_start : rreach h top G (r_empty h top)
  | RR_ret s e op a s' : rreach h top G s -> rok op s -> G s op -> env_ok e -> rcall e op s = Ret a s' -> rreach h top G s'
  | RR_thr s e op s' : rreach h top G s -> rok op s -> G s op -> env_ok e -> rcall e op s = Thr s' -> rreach h top G s'.
  Definition any (s : rst) (op : rop) : Prop := True.

  (** {1 Invariant} *)
  Definition weight_of s f : option N := f_exp (r_h s f).
  Record rinv s : Prop := {
    ri_built : forall f, built (r_h s f);
    ri_nd : NoDup (g_all (r_g s));
    ri_top : forall f, In f (g_all (r_g s)) -> f < r_top s;
    ri_facs : NoDup (r_const s ++ r_tun s);
    ri_in : forall f, In f (r_const s ++ r_tun s) -> In f (g_all (r_g s));
    ri_cls : NoDup (concat (tunable_clusters s));
    ri_tun : forall f, In f (concat (tunable_clusters s)) -> In f (r_tun s);
    ri_exp : forall f, In f (concat (tunable_clusters s)) -> weight_of s f <> None;
    ri_ne : forall c, In c (tunable_clusters s) -> c <> [];
    ri_eq : forall c f f', In c (tunable_clusters s) -> In f c -> In f' c -> weight_of s f = weight_of s f'
  }.
  (** objects stay, with their variables and classes; the factors of the model stay *)
  Record rle s s' : Prop := {
    rl_top : r_top s <= r_top s';
    rl_vars : forall f, f < r_top s -> f_group (r_h s' f) = f_group (r_h s f);
    rl_exp : forall f, f < r_top s -> (f_exp (r_h s f) = None <-> f_exp (r_h s' f) = None);
    rl_all : exists l, g_all (r_g s') = g_all (r_g s) ++ l;
    rl_gvars : exists l, g_vars (r_g s') = g_vars (r_g s) ++ l
  }.
  Lemma rle_refl s : rle s s.
  Proof. constructor; auto; try tauto; exists []; rewrite app_nil_r; auto. Qed.
  Lemma rle_trans s t u : rle s t -> rle t u -> rle s u.
  Proof.
    intros A B. pose proof (rl_top _ _ A). pose proof (rl_top _ _ B). constructor. lia.
    - intros f L. rewrite (rl_vars _ _ B) by lia. apply A; auto.
    - intros f L. rewrite (rl_exp _ _ A f L). apply B. lia.
    - destruct (rl_all _ _ A) as [l El], (rl_all _ _ B) as [m Em]. exists (l ++ m). rewrite Em, El, app_assoc. auto.
    - destruct (rl_gvars _ _ A) as [l El], (rl_gvars _ _ B) as [m Em]. exists (l ++ m). rewrite Em, El, app_assoc. auto.
  Qed.
  Lemma expo_le s s' f : rle s s' -> expo s f -> expo s' f.
  Proof. intros L [A B]. split. pose proof (rl_top _ _ L); lia. intros Q. apply B. apply (rl_exp _ _ L); auto. Qed.
  Lemma object_le s s' f : rle s s' -> object s f -> object s' f.
  Proof. unfold object. intros L A. pose proof (rl_top _ _ L); lia. Qed.

  Definition step s s' : Prop := rinv s' /\ rle s s'.
  Definition ostep {B} s (o : out rst B) : Prop := match o with Ret _ s' | Thr s' => step s s' | _ => True end.
  Lemma ostep_bind {B D} s (o : out rst B) (f : B -> rst -> out rst D) :
    ostep s o -> (forall b s', o = Ret b s' -> step s s' -> ostep s (f b s')) -> ostep s (obind o f).
  Proof. destruct o; simpl; auto. Qed.
  Lemma ostep_lift {B} s s' (r : res B) : step s s' -> ostep s (lift r s').
  Proof. destruct r; simpl; auto. Qed.
  Lemma ostep_fold {B} (f : B -> rst -> out rst unit) l s : forall s', step s s' ->
    (forall b s', In b l -> step s s' -> ostep s (f b s')) -> ostep s (ofold f l s').
  Proof. induction l as [|b l IH]; simpl; intros s' E F; auto. apply ostep_bind; auto. Qed.
  Lemma ostep_catch s o : ostep s o -> ostep s (try_catch o).
  Proof. destruct o; simpl; auto. Qed.
  Lemma ostep_from {B} s t (o : out rst B) : step s t -> ostep t o -> ostep s o.
  Proof. intros [_ L]. destruct o; simpl; auto; intros [I M]; split; auto; eapply rle_trans; eauto. Qed.
  Lemma ostep_map {B} s (f : B -> answer) o : ostep s o -> ostep s (rmapo f o).
  Proof. destruct o; simpl; auto. Qed.
  Lemma step_refl s : rinv s -> step s s.
  Proof. split; auto. apply rle_refl. Qed.

  (** a step that keeps the heap, the lists of factors and the tuners *)
  Lemma step_g s g : rinv s -> g_vars g = g_vars (r_g s) -> g_all g = g_all (r_g s) -> step s (set_g s g).
  Proof.
    intros I Ev Ea. split.
    - destruct I. constructor; simpl; auto; rewrite Ea; auto.
    - constructor; simpl; auto; try tauto; exists []; rewrite app_nil_r; auto.
  Qed.
  Lemma on_g_stat {B} s (m : gst -> out gst B) : rinv s -> ostat (r_g s) (m (r_g s)) -> ostep s (on_g m s).
  Proof. intros I Q. unfold on_g. destruct (m (r_g s)); simpl in *; auto; destruct Q; apply step_g; auto. Qed.

  Lemma alloc_step s f : rinv s -> built f -> step s (snd (alloc s f)).
  Proof.
    intros I Hb. assert (NE : forall k, In k (g_all (r_g s)) -> k <> r_top s) by (intros k J; apply (ri_top _ I) in J; lia).
    assert (NC : forall k, In k (concat (tunable_clusters s)) -> k <> r_top s).
    { intros k J. apply NE. apply (ri_in _ I). apply in_or_app. right. apply (ri_tun _ I). auto. }
    split.
    - constructor; simpl; try apply I.
      + intros k. unfold fupd. destruct (k =? r_top s); auto. apply I.
      + intros k J. apply (ri_top _ I) in J. lia.
      + intros k J. unfold weight_of. simpl. rewrite fupd_ne by (apply NC; auto). apply I. auto.
      + intros c k k' Ic J J'. unfold weight_of. simpl. rewrite !fupd_ne by (apply NC; eapply in_concat; eauto). apply (ri_eq _ I c); auto.
    - constructor; simpl; try (exists []; rewrite app_nil_r; auto); try lia; intros k L; rewrite fupd_ne by lia; tauto.
  Qed.

  (** an insertion in the graph *)
  Definition inserted s s' f : Prop :=
    ~ In f (g_all (r_g s)) /\ g_all (r_g s') = g_all (r_g s) ++ [f] /\ (exists l, g_vars (r_g s') = g_vars (r_g s) ++ l) /\ s' = set_g s (r_g s').
  Lemma on_g_add s d : rinv s -> (forall f, d = Some f -> object s f) ->
    match on_g (fun g => add_distribution (r_h s) g d) s with
    | Ret _ s' => step s s' /\ exists f, d = Some f /\ inserted s s' f
    | Thr s' => step s s' /\ g_all (r_g s') = g_all (r_g s)
    | _ => True
    end.
  Proof.
    intros I Hd. unfold on_g. pose proof (add_fields (r_h s) (r_g s) d) as Q.
    destruct (add_distribution (r_h s) (r_g s) d) as [[] g|g| | |]; auto.
    - destruct Q as (f & -> & NI & Ea & Ev). specialize (Hd f eq_refl). split.
      + split.
        * destruct I. constructor; simpl; auto; rewrite ?Ea.
          -- apply NoDup_app_intro; auto. repeat constructor; auto. intros x A [<-|[]]. auto.
          -- intros k J. apply in_app_or in J as [J|[<-|[]]]; auto.
          -- intros k J. apply in_or_app. left. auto.
        * constructor; simpl; auto; try tauto. exists [f]; auto.
      + exists f. split; auto. split; auto.
    - destruct Q as [Ea Ev]. split; auto. split.
      + destruct I. constructor; simpl; auto; rewrite Ea; auto.
      + constructor; simpl; auto; try tauto. exists []. rewrite app_nil_r. auto.
  Qed.

  Lemma add_const_step s d : rinv s -> (forall f, d = Some f -> object s f) -> ostep s (add_const d s).
  Proof.
    intros I Hd. unfold add_const. pose proof (on_g_add s d I Hd) as Q.
    destruct (on_g _ s) as [[] s'|s'| | |]; simpl; auto; [|apply Q].
    destruct Q as ([I' L] & f & -> & NI & Ea & _ & ES). split.
    - assert (NI' : ~ In f (r_const s' ++ r_tun s')). { rewrite ES. simpl. intros J. apply NI. apply (ri_in _ I). auto. }
      destruct I'. constructor; simpl; auto.
      + apply (Permutation_NoDup (l := f :: r_const s' ++ r_tun s')); [|constructor; auto].
        rewrite <- app_assoc. simpl. apply Permutation_middle.
      + intros k J. rewrite <- app_assoc in J. apply in_app_or in J as [J|[<-|J]].
        * apply ri_in0. apply in_or_app; auto.
        * rewrite Ea. apply in_or_app. right. simpl. auto.
        * apply ri_in0. apply in_or_app; auto.
    - destruct L. constructor; auto.
  Qed.

  Lemma copy_const_step s f : rinv s -> ostep s (copy_const f s).
  Proof.
    intros I. unfold copy_const. apply ostep_bind. apply ostep_lift. apply step_refl; auto.
    intros c s' Q _. destruct (factor_clone_transformed (r_h s f)) as [c'| | | |] eqn:E; simpl in Q; try discriminate.
    injection Q as <- <-. assert (ST : step s (snd (alloc s c'))). { apply alloc_step; auto. eapply b_clone; eauto. apply I. }
    cbn [alloc snd] in *. eapply ostep_from. exact ST. apply add_const_step. apply ST. intros k [= <-]. unfold object. simpl. lia.
  Qed.
  Lemma absorb_const_step s l copy : rinv s -> (forall f, In f l -> object s f) -> ostep s (absorb_const l copy s).
  Proof.
    intros I Hl. unfold absorb_const. apply ostep_fold. apply step_refl; auto. intros f s' J ST. apply ostep_catch.
    eapply ostep_from. exact ST. destruct copy. apply copy_const_step. apply ST. apply add_const_step. apply ST.
    intros k [= <-]. eapply object_le. apply ST. auto.
  Qed.

  (** {1 Weights} *)

  (** the heap after the weights of some factors are set *)
  Definition put_weight (h : nat -> func N) (w : N) (f : nat) : nat -> func N :=
    fupd h f (mkFunc (f_group (h f)) (f_info (h f)) (f_data (h f)) (Some w)).
  Lemma base_set_weight_ok s w b : f_exp (r_h s (bt_fac b)) <> None ->
    base_set_weight w b s = Ret tt (set_h s (put_weight (r_h s) w (bt_fac b))).
  Proof. intros X. unfold base_set_weight, exp_set_weight. destruct (f_exp (r_h s (bt_fac b))); [|congruence]. reflexivity. Qed.

  Lemma put_weight_exp h w f k : h f = h f -> f_exp (put_weight h w f k) = if k =? f then Some w else f_exp (h k).
  Proof. intros _. unfold put_weight, fupd. destruct (k =? f); auto. Qed.
  Lemma put_weight_group h w f k : f_group (put_weight h w f k) = f_group (h k).
  Proof. unfold put_weight, fupd. destruct (Nat.eqb_spec k f); subst; auto. Qed.
  Lemma put_weight_built (h : nat -> func N) w f : (forall k, built (h k)) -> f_exp (h f) <> None -> forall k, built (put_weight h w f k).
  Proof.
    intros Hb X k. unfold put_weight, fupd. destruct (k =? f) eqn:E; auto. eapply (b_weight (h f) w); auto.
    unfold exp_set_weight. destruct (f_exp (h f)); congruence.
  Qed.

  (** the objects of a heap, but for the weights of some addresses *)
  Record weighted (h h' : nat -> func N) (l : list nat) (w : N) : Prop := {
    wd_in : forall k, In k l -> h' k = mkFunc (f_group (h k)) (f_info (h k)) (f_data (h k)) (Some w);
    wd_out : forall k, ~ In k l -> h' k = h k
  }.
  Lemma tuner_set_weight_ok w t : forall s, (forall b, In b (bases t) -> f_exp (r_h s (bt_fac b)) <> None) ->
    exists h', tuner_set_weight t w s = Ret tt (set_h s h') /\ weighted (r_h s) h' (map bt_fac (bases t)) w.
  Proof.
    unfold tuner_set_weight. induction (bases t) as [|b l IH]; intros s X.
    - exists (r_h s). split. destruct s; auto. split; simpl; tauto.
    - cbn [ofold]. rewrite base_set_weight_ok by (apply X; left; auto). cbn [obind].
      destruct (IH (set_h s (put_weight (r_h s) w (bt_fac b)))) as (h' & E & W1 & W2).
      { intros b' J. cbn [r_h set_h]. rewrite put_weight_exp by auto. destruct (_ =? _); [discriminate|]. apply X. right; auto. }
      exists h'. split. { rewrite E. reflexivity. } cbn [r_h set_h] in *. split.
      + intros k J. destruct (in_dec Nat.eq_dec k (map bt_fac l)) as [J'|J'].
        * rewrite W1 by auto. unfold put_weight, fupd. destruct (Nat.eqb_spec k (bt_fac b)); subst; auto.
        * rewrite W2 by auto. destruct J as [<-|J]; [|contradiction]. unfold put_weight. rewrite fupd_eq. auto.
      + intros k J. rewrite W2. unfold put_weight. rewrite fupd_ne; auto. intros ->. apply J. left; auto. intros J'. apply J. right; auto.
  Qed.

  Lemma tuners_set_weight_ok : forall ts ws s, length ws = length ts ->
    (forall t b, In t ts -> In b (bases t) -> f_exp (r_h s (bt_fac b)) <> None) ->
    NoDup (concat (map (fun t => map bt_fac (bases t)) ts)) ->
    exists h', ofold (fun p s => tuner_set_weight (fst p) (snd p) s) (combine ts ws) s = Ret tt (set_h s h') /\
      (forall k t w f, nth_error ts k = Some t -> nth_error ws k = Some w -> In f (map bt_fac (bases t)) ->
         h' f = mkFunc (f_group (r_h s f)) (f_info (r_h s f)) (f_data (r_h s f)) (Some w)) /\
      (forall f, ~ In f (concat (map (fun t => map bt_fac (bases t)) ts)) -> h' f = r_h s f).
  Proof.
    induction ts as [|t ts IH]; intros [|w ws] s L X ND; try discriminate L.
    - exists (r_h s). split. destruct s; auto. split; auto. intros k t w f Q. destruct k; discriminate Q.
    - cbn [combine ofold fst snd].
      destruct (tuner_set_weight_ok w t s) as (h1 & E1 & W1 & W2). { intros b J. apply (X t); auto. left; auto. }
      rewrite E1. cbn [obind]. simpl in ND. 
      assert (D : forall f, In f (map bt_fac (bases t)) -> ~ In f (concat (map (fun t => map bt_fac (bases t)) ts))).
      { intros f J1 J2. clear -ND J1 J2. induction (map bt_fac (bases t)) as [|x l IHl]; simpl in *; [tauto|].
        inversion ND; subst. destruct J1 as [<-|J1]; auto. apply H1. apply in_or_app; auto. }
      destruct (IH ws (set_h s h1)) as (h2 & E2 & P1 & P2).
      + simpl in L. congruence.
      + intros t' b Jt Jb. cbn [r_h set_h]. destruct (in_dec Nat.eq_dec (bt_fac b) (map bt_fac (bases t))) as [J|J].
        rewrite W1 by auto. discriminate. rewrite W2 by auto. apply (X t'); auto. right; auto.
      + eapply NoDup_app_parts; eauto.
      + exists h2. split. { rewrite E2. reflexivity. } cbn [r_h set_h] in *. split.
        * intros [|k] t' w' f Ht Hw J; simpl in Ht, Hw.
          -- injection Ht as <-. injection Hw as <-. rewrite P2 by (apply D; auto). apply W1; auto.
          -- rewrite (P1 k t' w' f); auto.
             assert (NJ : ~ In f (map bt_fac (bases t))).
             { intros J'. apply (D f J'). apply in_concat. exists (map bt_fac (bases t')). split; auto.
               apply in_map_iff. exists t'. split; auto. eapply nth_error_In; eauto. }
             rewrite W2; auto.
        * intros f J. simpl in J. rewrite P2, W2; auto; intros J'; apply J; apply in_or_app; auto.
  Qed.

  Lemma rinv_exp s t b : rinv s -> In t (r_tuners s) -> In b (bases t) -> f_exp (r_h s (bt_fac b)) <> None.
  Proof.
    intros I Jt Jb. apply (ri_exp _ I). apply in_concat. exists (map bt_fac (bases t)). split.
    apply in_map_iff. eauto. apply in_map; auto.
  Qed.

  (** [setWeights] with a vector of the right size *)
  Lemma set_weights_ok s ws : rinv s -> length ws = length (r_tuners s) ->
    exists h', set_weights ws s = Ret tt (set_g (set_h s h') (reset_belief (r_g s))) /\
      (forall k c w f, nth_error (tunable_clusters s) k = Some c -> nth_error ws k = Some w -> In f c ->
         h' f = mkFunc (f_group (r_h s f)) (f_info (r_h s f)) (f_data (r_h s f)) (Some w)) /\
      (forall f, ~ In f (concat (tunable_clusters s)) -> h' f = r_h s f).
  Proof.
    intros I L. unfold set_weights. rewrite L, Nat.eqb_refl.
    destruct (tuners_set_weight_ok (r_tuners s) ws s L) as (h' & E & P1 & P2).
    { intros t b Jt Jb. eapply rinv_exp; eauto. } { apply I. }
    exists h'. rewrite E. split. reflexivity. split; auto.
    intros k c w f Hc Hw J. unfold tunable_clusters in Hc. rewrite nth_error_map in Hc.
    destruct (nth_error (r_tuners s) k) as [t|] eqn:Et; [|discriminate]. injection Hc as <-. eapply P1; eauto.
  Qed.

  Lemma set_weights_step s ws : rinv s -> ostep s (set_weights ws s).
  Proof.
    intros I. destruct (Nat.eq_dec (length ws) (length (r_tuners s))) as [L|L].
    2:{ unfold set_weights. apply Nat.eqb_neq in L. rewrite L. apply step_refl; auto. }
    destruct (set_weights_ok s ws I L) as (h' & E & P1 & P2). rewrite E. cbn [ostep].
    assert (LC : length (tunable_clusters s) = length (r_tuners s)) by (unfold tunable_clusters; apply map_length).
    assert (K : forall f, In f (concat (tunable_clusters s)) -> exists k c w, nth_error (tunable_clusters s) k = Some c /\ nth_error ws k = Some w /\ In f c).
    { intros f J. apply in_concat in J as (c & Jc & Jf). apply In_nth_error in Jc as (k & Ek).
      destruct (nth_error ws k) as [w|] eqn:Ew. exists k, c, w; auto. exfalso. apply nth_error_None in Ew.
      assert (k < length (tunable_clusters s)) by (apply nth_error_Some; congruence). lia. }
    assert (EX : forall f, In f (concat (tunable_clusters s)) \/ h' f = r_h s f).
    { intros f. destruct (in_dec Nat.eq_dec f (concat (tunable_clusters s))); auto. }
    split.
    - constructor; simpl; try apply I.
      + intros f. destruct (EX f) as [J| ->]; [|apply I]. pose proof J as J'. apply K in J' as (k & c & w & Hc & Hw & Jf).
        rewrite (P1 k c w f) by auto. eapply (b_weight (r_h s f) w). apply I. unfold exp_set_weight.
        pose proof (ri_exp _ I f J) as X. unfold weight_of in X. destruct (f_exp (r_h s f)); congruence.
      + intros f J. unfold weight_of. simpl. apply K in J as (k & c & w & Hc & Hw & Jf). rewrite (P1 k c w f) by auto. discriminate.
      + intros c f f' Jc Jf Jf'. unfold weight_of. simpl. apply In_nth_error in Jc as (k & Hc). change (tunable_clusters (set_g (set_h s h') (reset_belief (r_g s)))) with (tunable_clusters s) in Hc.
        destruct (nth_error ws k) as [w|] eqn:Hw. 2:{ apply nth_error_None in Hw.
          assert (k < length (tunable_clusters s)) by (apply nth_error_Some; congruence). lia. }
        rewrite (P1 k c w f), (P1 k c w f') by auto. auto.
    - constructor; simpl; auto; try (exists []; rewrite app_nil_r; auto).
      + intros f _. destruct (EX f) as [J| ->]; auto. apply K in J as (k & c & w & Hc & Hw & Jf). rewrite (P1 k c w f) by auto. auto.
      + intros f _. destruct (EX f) as [J| ->]; [|tauto]. pose proof (ri_exp _ I f J) as X. apply K in J as (k & c & w & Hc & Hw & Jf).
        rewrite (P1 k c w f) by auto. simpl. unfold weight_of in X. split; [contradiction|discriminate].
  Qed.

  (** {1 Tunable factors} *)
  Lemma make_tuner_fac s f t : make_tuner s f = Ok t -> bt_fac t = f.
  Proof.
    unfold make_tuner. destruct (f_vars (r_h s f)) as [|v [|w [|]]]; try discriminate.
    - intros Q. apply rbind_ok in Q as (a & _ & Q). apply rbind_ok in Q as (fd & _ & [= <-]). auto.
    - intros Q. apply rbind_ok in Q as (a & _ & Q). apply rbind_ok in Q as (b & _ & Q). apply rbind_ok in Q as (fd & _ & Q).
      apply rbind_ok in Q as (va & _ & Q). apply rbind_ok in Q as (vb & _ & Q). destruct (var_peqb v va && var_peqb w vb); inversion Q; auto.
  Qed.

  Lemma lset_split {A} (l : list A) i x a : nth_error l i = Some a -> exists p q, l = p ++ a :: q /\ length p = i /\ lset l i x = p ++ x :: q.
  Proof.
    revert i; induction l as [|y l IH]; intros [|i]; simpl; try discriminate.
    - intros [= ->]. exists [], l. auto.
    - intros Q. destruct (IH i Q) as (p & q & -> & <- & E). exists (y :: p), q. simpl. rewrite E. auto.
  Qed.

  Lemma add_tunable_step s d share : rinv s -> (forall f, d = Some f -> expo s f) -> ostep s (add_tunable d share s).
  Proof.
    intros I Hd. unfold add_tunable. pose proof (on_g_add s d I (fun f E => proj1 (Hd f E))) as Q.
    destruct (on_g _ s) as [[] s1|s1| | |]; cbn [obind]; auto; [|apply Q].
    destruct Q as (ST1 & f & -> & NI & Ea & _ & ES).
    assert (X : expo s f) by (apply Hd; auto).
    assert (X1 : expo s1 f) by (eapply expo_le; [apply ST1|auto]).
    destruct (make_tuner s1 f) as [t| | | |] eqn:ET; cbn [lift obind]; try exact ST1; try exact Logic.I.
    pose proof (make_tuner_fac _ _ _ ET) as Ef. destruct ST1 as [I1 L1].
    assert (NI' : ~ In f (r_const s1 ++ r_tun s1)). { rewrite ES. simpl. intros J. apply NI. apply (ri_in _ I). auto. }
    set (s2 := set_tun s1 (r_tun s1 ++ [f])).
    assert (I2 : rinv s2).
    { pose proof I1 as I1'. destruct I1'. constructor; simpl; auto.
      - rewrite app_assoc. apply NoDup_app_intro; auto. repeat constructor; auto. intros x J [<-|[]]. auto.
      - intros k J. rewrite app_assoc in J. apply in_app_or in J as [J|[<-|[]]]; auto. rewrite Ea. apply in_or_app. right. simpl; auto.
      - intros k J. apply in_or_app. left. apply ri_tun0. auto. }
    assert (L2 : rle s s2) by (destruct L1; constructor; auto).
    assert (NC : ~ In f (concat (tunable_clusters s2))).
    { intros J. apply NI'. apply in_or_app. right. apply (ri_tun _ I1). auto. }
    assert (WF : forall k, In k (concat (tunable_clusters s2)) -> k <> f) by (intros k J ->; auto).
    destruct share as [group|].
    2:{ cbn [ostep]. split.
        - assert (EC : tunable_clusters (set_tuners s2 (r_tuners s2 ++ [TBase t])) = tunable_clusters s2 ++ [[f]]).
          { unfold tunable_clusters. cbn [r_tuners set_tuners]. rewrite map_app. simpl. rewrite Ef. auto. }
          assert (EC' : concat (tunable_clusters (set_tuners s2 (r_tuners s2 ++ [TBase t]))) = concat (tunable_clusters s2) ++ [f]).
          { rewrite EC, concat_app. auto. }
          pose proof I2 as I2'. destruct I2'. constructor; try assumption.
          + rewrite EC'. apply NoDup_app_intro; auto. repeat constructor; auto. intros x J [<-|[]]; auto.
          + rewrite EC'. intros k J. apply in_app_or in J as [J|[<-|[]]]. apply ri_tun0; auto. simpl. apply in_or_app. right; simpl; auto.
          + rewrite EC'. intros k J. apply in_app_or in J as [J|[<-|[]]]. apply ri_exp0; auto. apply X1.
          + rewrite EC. intros c J. apply in_app_or in J as [J|[<-|[]]]; auto. discriminate.
          + rewrite EC. intros c k k' J Jk Jk'. apply in_app_or in J as [J|[<-|[]]]. apply (ri_eq0 c); auto.
            destruct Jk as [<-|[]], Jk' as [<-|[]]. auto.
        - destruct L2; constructor; auto. }
    fold s2. destruct (find_tuner s2 group) as [i| | | |] eqn:EF; cbn [lift obind ostep]; try exact Logic.I; try (split; auto; fail).
    destruct (vget (r_tuners s2) i) as [old| | | |] eqn:EO; cbn [lift obind ostep]; try exact Logic.I; try (split; auto; fail).
    assert (EN : nth_error (r_tuners s2) i = Some old). { unfold vget in EO. destruct (nth_error (r_tuners s2) i); inversion EO; auto. }
    set (new := TComp (bases old ++ [t])). destruct (lset_split _ _ new _ EN) as (p & q & Ep & Li & El).
    set (s3 := set_tuners s2 (lset (r_tuners s2) i new)).
    assert (Jold : In old (r_tuners s2)) by (eapply nth_error_In; eauto).
    assert (Cold : In (map bt_fac (bases old)) (tunable_clusters s2)) by (apply in_map_iff; eauto).
    destruct (bases old) as [|b0 bs] eqn:EB. { exfalso. apply (ri_ne _ I2 _ Cold). auto. }
    assert (X0 : f_exp (r_h s2 (bt_fac b0)) <> None). { apply (rinv_exp s2 old b0 I2 Jold). rewrite EB. left; auto. }
    cbn [new tuner_weight]. cbn [app].
    change (r_h s3) with (r_h s2). unfold exp_get_weight. destruct (f_exp (r_h s2 (bt_fac b0))) as [w0|] eqn:E0; [|congruence].
    cbn [lift obind]. subst new. cbn [app] in *.
    destruct (tuner_set_weight_ok w0 (TComp (b0 :: bs ++ [t])) s3) as (h' & E & W1 & W2).
    { intros b Jb. cbn [bases] in Jb. change (r_h s3) with (r_h s2).
      rewrite app_comm_cons in Jb. apply in_app_or in Jb as [Jb|[<-|[]]]. apply (rinv_exp s2 old); auto. rewrite EB; auto.
      rewrite Ef. apply X1. }
    rewrite E. cbn [ostep]. change (r_h s3) with (r_h s2) in W1, W2. cbn [bases] in W1, W2.
    set (C := map bt_fac (b0 :: bs)). assert (EM : map bt_fac (b0 :: bs ++ [t]) = C ++ [f]).
    { rewrite app_comm_cons, map_app. simpl map at 2. rewrite Ef. auto. }
    rewrite EM in W1, W2. cbn [map] in Cold. fold (map bt_fac (b0 :: bs)) in Cold. change (In C (tunable_clusters s2)) in Cold.
    assert (WC : forall k, In k C -> f_exp (r_h s2 k) = Some w0).
    { intros k J. rewrite <- E0. apply (ri_eq _ I2 C); auto. left; auto. }
    assert (HX : forall k, f_exp (h' k) = if k =? f then Some w0 else f_exp (r_h s2 k)).
    { intros k. destruct (in_dec Nat.eq_dec k (C ++ [f])) as [J|J].
      - rewrite W1 by auto. cbn [f_exp]. apply in_app_or in J as [J|[<-|[]]]. rewrite (WC k J). destruct (_ =? _); auto.
        rewrite Nat.eqb_refl; auto.
      - rewrite W2 by auto. destruct (Nat.eqb_spec k f); auto. subst. exfalso. apply J. apply in_or_app. right; simpl; auto. }
    assert (HGr : forall k, f_group (h' k) = f_group (r_h s2 k)).
    { intros k. destruct (in_dec Nat.eq_dec k (C ++ [f])) as [J|J]; [rewrite W1 by auto|rewrite W2 by auto]; auto. }
    assert (EC2 : tunable_clusters s2 = map (fun t => map bt_fac (bases t)) p ++ C :: map (fun t => map bt_fac (bases t)) q).
    { unfold tunable_clusters. rewrite Ep, map_app. cbn [map]. rewrite EB. auto. }
    assert (EC3 : tunable_clusters (set_h s3 h') = map (fun t => map bt_fac (bases t)) p ++ (C ++ [f]) :: map (fun t => map bt_fac (bases t)) q).
    { unfold tunable_clusters, s3. cbn [r_tuners set_tuners set_h]. rewrite El, map_app. cbn [map bases]. rewrite <- EM. auto. }
    assert (PC : Permutation (concat (tunable_clusters (set_h s3 h'))) (f :: concat (tunable_clusters s2))).
    { rewrite EC3, EC2, !concat_app. cbn [concat]. rewrite <- app_assoc. cbn [app].
      rewrite !app_assoc. symmetry. rewrite <- app_assoc. etransitivity; [|apply Permutation_middle]. rewrite <- !app_assoc. auto. }
    split.
    - pose proof I2 as I2'. destruct I2'. constructor; try assumption.
      + intros k. change (r_h (set_h s3 h')) with h'. destruct (in_dec Nat.eq_dec k (C ++ [f])) as [J|J].
        * rewrite W1 by auto. eapply (b_weight (r_h s2 k) w0). apply ri_built0. unfold exp_set_weight.
          destruct (f_exp (r_h s2 k)) eqn:Q; auto. exfalso. apply in_app_or in J as [J|[<-|[]]]. rewrite (WC k J) in Q. discriminate.
          apply X1. auto.
        * rewrite W2 by auto. auto.
      + eapply Permutation_NoDup. symmetry. exact PC. constructor; auto.
      + intros k J. apply (Permutation_in _ PC) in J as [<-|J]. simpl. apply in_or_app. right; simpl; auto. apply ri_tun0; auto.
      + intros k J. unfold weight_of. change (r_h (set_h s3 h')) with h'. rewrite HX. destruct (Nat.eqb_spec k f). discriminate.
        apply (Permutation_in _ PC) in J as [->|J]; [congruence|]. apply ri_exp0. auto.
      + rewrite EC3. intros c J. apply in_app_or in J as [J|[<-|J]].
        * apply ri_ne0. rewrite EC2. apply in_or_app; auto.
        * discriminate.
        * apply ri_ne0. rewrite EC2. apply in_or_app. right; right; auto.
      + rewrite EC3. intros c k k' J Jk Jk'. unfold weight_of. change (r_h (set_h s3 h')) with h'. rewrite !HX.
        assert (OLD : In c (tunable_clusters s2) -> (if k =? f then Some w0 else f_exp (r_h s2 k)) = (if k' =? f then Some w0 else f_exp (r_h s2 k'))).
        { intros Jc. assert (k <> f /\ k' <> f) as [N1 N2]. { split; apply WF; apply in_concat; eauto. }
          apply Nat.eqb_neq in N1, N2. rewrite N1, N2. apply (ri_eq0 c); auto. }
        apply in_app_or in J as [J|[<-|J]].
        * apply OLD. rewrite EC2. apply in_or_app; auto.
        * assert (Q : forall k, In k (C ++ [f]) -> (if k =? f then Some w0 else f_exp (r_h s2 k)) = Some w0).
          { intros j Jj. apply in_app_or in Jj as [Jj|[<-|[]]]. rewrite (WC j Jj). destruct (j =? f); auto. rewrite Nat.eqb_refl; auto. }
          rewrite !Q; auto.
        * apply OLD. rewrite EC2. apply in_or_app. right; right; auto.
    - pose proof L2 as L2'. destruct L2'. constructor; simpl; auto.
      + intros k Lk. rewrite HGr. apply rl_vars0; auto.
      + intros k Lk. rewrite (rl_exp0 k Lk), HX. destruct (Nat.eqb_spec k f); [|tauto]. subst k.
        destruct X1 as [_ X1]. change (r_h s2) with (r_h s1). split; [intros; contradiction|discriminate].
  Qed.

  Lemma copy_tunable_step s f share : rinv s -> expo s f -> ostep s (copy_tunable f share s).
  Proof.
    intros I X. unfold copy_tunable. apply ostep_bind. apply ostep_lift. apply step_refl; auto.
    intros c s' Q _. destruct (exp_copy (r_h s f)) as [c'| | | |] eqn:E; simpl in Q; try discriminate.
    injection Q as <- <-. assert (Hb : built c'). { eapply b_expcopy; eauto. apply I. }
    assert (ST : step s (snd (alloc s c'))) by (apply alloc_step; auto).
    cbn [alloc snd] in *. eapply ostep_from. exact ST. apply add_tunable_step. apply ST. intros k [= <-]. split; simpl. lia.
    rewrite fupd_eq. unfold exp_copy in E. apply rbind_ok in E as (w & _ & E). unfold exp_ctor in E. apply rbind_ok in E as (es & _ & [= <-]).
    discriminate.
  Qed.
  Lemma insert_tunable_step s copy f share : rinv s -> expo s f -> ostep s (insert_tunable copy f share s).
  Proof. intros I X. destruct copy. apply copy_tunable_step; auto. apply add_tunable_step; auto. intros k [= <-]. auto. Qed.
  Lemma absorb_tunable_step s copy l : rinv s -> (forall f, In f l -> expo s f) -> ostep s (absorb_tunable copy l s).
  Proof.
    intros I Hl. unfold absorb_tunable. apply ostep_fold. apply step_refl; auto. intros f s' J ST. apply ostep_catch.
    eapply ostep_from. exact ST. apply insert_tunable_step. apply ST. eapply expo_le. apply ST. auto.
  Qed.
  Lemma absorb_cluster_step s copy c : rinv s -> (forall f, In f c -> expo s f) -> ostep s (absorb_cluster copy c s).
  Proof.
    intros I Hc. destruct c as [|f c]; simpl; auto. apply ostep_bind. apply insert_tunable_step; auto. apply Hc. left; auto.
    intros _ s' _ ST. apply ostep_fold; auto. intros k s2 J ST2. eapply ostep_from. exact ST2. apply insert_tunable_step. apply ST2.
    eapply expo_le. apply ST2. apply Hc. right; auto.
  Qed.
  Lemma absorb_clusters_step s copy cs : rinv s -> (forall c f, In c cs -> In f c -> expo s f) -> ostep s (absorb_clusters copy cs s).
  Proof.
    intros I Hl. unfold absorb_clusters. apply ostep_fold. apply step_refl; auto. intros c s' J ST. apply ostep_catch.
    eapply ostep_from. exact ST. apply absorb_cluster_step. apply ST. intros f Jf. eapply expo_le. apply ST. eauto.
  Qed.
  Lemma set_all_ones_step s : rinv s -> ostep s (set_all_ones s).
  Proof.
    intros I. unfold set_all_ones. apply ostep_bind. apply ostep_lift. apply step_refl; auto.
    intros ws s' _ ST. eapply ostep_from. exact ST. apply set_weights_step. apply ST.
  Qed.

  Lemma rf_gradient_step s e it : rinv s -> ostep s (rf_gradient e it s).
  Proof.
    intros I. unfold rf_gradient. apply ostep_bind.
    { destruct (existsb _ _); [|apply step_refl; auto]. apply on_g_stat; auto. apply remove_all_stat, same_refl. }
    intros _ s1 _ ST1. apply ostep_bind.
    { assert (ST2 : step s (set_g s1 (reset_belief (r_g s1)))). { destruct ST1 as [I1 L1].
        pose proof (step_g s1 (reset_belief (r_g s1)) I1 eq_refl eq_refl) as [I2 L2]. split; auto. eapply rle_trans; eauto. }
      eapply ostep_from. exact ST2. apply on_g_stat. apply ST2. apply propagate_stat, same_refl. }
    intros _ s2 _ ST2. destruct (g_pool (r_g s2)); auto. apply ostep_lift. auto.
  Qed.
  Lemma scoped_step {B} s n (body : rst -> out rst B) : rinv s -> (forall s', rinv s' -> ostep s' (body s')) -> ostep s (scoped n body s).
  Proof.
    intros I F. unfold scoped. apply ostep_bind. apply on_g_stat; auto. apply set_pool_stat, same_refl.
    intros _ s1 _ ST1. pose proof (F s1 (proj1 ST1)) as Q.
    assert (K : forall s2, step s1 s2 -> step s (set_g s2 (set_pool (r_g s2) (Some 1)))).
    { intros s2 [I2 L2]. pose proof (step_g s2 (set_pool (r_g s2) (Some 1)) I2 eq_refl eq_refl) as [I3 L3]. split; auto.
      eapply rle_trans. apply ST1. eapply rle_trans; eauto. }
    destruct (body s1); simpl in *; auto.
  Qed.

  Lemma rcall_step e op s : rinv s -> rok op s -> ostep s (rcall e op s).
  Proof.
    intros I Hop. destruct op; cbn [rcall rok] in *; try apply ostep_map.
    - apply alloc_step; auto.
    - apply add_const_step; auto. intros f ->. auto.
    - apply copy_const_step; auto.
    - apply absorb_const_step; auto.
    - apply add_tunable_step; auto. intros f ->. auto.
    - apply copy_tunable_step; auto.
    - apply absorb_tunable_step; auto.
    - apply absorb_clusters_step; auto.
    - apply set_weights_step; auto.
    - apply set_all_ones_step; auto.
    - apply scoped_step; auto. intros. apply rf_gradient_step; auto.
    - apply on_g_stat; auto. apply call_stat. auto.
  Qed.

  Lemma rinv_empty h top : (forall f, built (h f)) -> rinv (r_empty h top).
  Proof. intros Hb. constructor; simpl; auto; try constructor; try tauto. Qed.
  Theorem rreach_inv h top G s : (forall f, built (h f)) -> rreach h top G s -> rinv s.
  Proof.
    intros Hb R. induction R as [|s e op a s' R IH Hop _ _ E|s e op s' R IH Hop _ _ E].
    - apply rinv_empty; auto.
    - pose proof (rcall_step e op s IH Hop) as Q. rewrite E in Q. apply Q.
    - pose proof (rcall_step e op s IH Hop) as Q. rewrite E in Q. apply Q.
  Qed.
End RHist.
