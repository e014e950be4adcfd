(** Every call on a random field, on a conditional random field and every training
    ends: no hypothesis on the history *)
From Coq Require Import String List Arith Bool Lia Permutation.
From Verif Require Import Res Num Categoric Combs Func FuncProofs GroupProofs FactorProofs FactorApi Special SpecialProofs
  Graph GraphLemmas Clusters Belief Query GraphInv EvidInv BeliefInv GraphSpec Hist Tree BPRun Indep Halt Gibbs Train TrainHist CRF Coherent CRFHist Trainer.
Import ListNotations.
Open Scope nat_scope.

Section FieldHalt.
  Context {N : num}.
  Notation gst := (gst (N:=N)).
  Notation rst := (rst (N:=N)).
  Implicit Types s : rst.

  (** the objects exist and the cached messages have at least a value *)
  Definition neat s : Prop := (forall f, built (r_h s f)) /\ szd (r_g s).
  (** [Z0] tells whether a computation that does not end is accepted: [False] for the
      theorems *)
  Variable Z0 : Prop.
  Definition rcalm {A} (o : out rst A) : Prop :=
    match o with Ret _ t | Thr t => neat t | NoStop => Z0 | _ => True end.
  Lemma rcalm_bind {A B} (o : out rst A) (f : A -> rst -> out rst B) : rcalm o -> (forall a t, o = Ret a t -> neat t -> rcalm (f a t)) -> rcalm (obind o f).
  Proof. destruct o; simpl; auto. Qed.
  Lemma rcalm_lift {A} (r : res A) s : neat s -> halts r -> rcalm (lift r s).
  Proof. intros I Q. destruct r; simpl; auto. destruct Q; auto. Qed.
  Lemma rcalm_lift_bind {A B} (r : res A) s (f : A -> rst -> out rst B) : neat s -> halts r -> (forall a, r = Ok a -> rcalm (f a s)) -> rcalm (obind (lift r s) f).
  Proof. intros I Q K. destruct r; simpl; auto. destruct Q; auto. Qed.
  Lemma rcalm_fold {A} (f : A -> rst -> out rst unit) l : (forall x t, In x l -> neat t -> rcalm (f x t)) -> forall t, neat t -> rcalm (ofold f l t).
  Proof. induction l as [|x l IH]; simpl; intros K t I; auto. apply rcalm_bind. apply K; auto. intros _ t' _ I'. apply IH; auto. Qed.
  Lemma rcalm_catch (o : out rst unit) : rcalm o -> rcalm (try_catch o).
  Proof. destruct o; simpl; auto. Qed.
  Lemma neat_solids s : neat s -> solids (r_h s).
  Proof. intros [Hb _]. apply built_solids; auto. Qed.
  Lemma neat_g s g : neat s -> szd g -> neat (set_g s g).
  Proof. intros [Hb _] Z. split; auto. Qed.
  Lemma rcalm_on {A} (m : gst -> out gst A) s : neat s -> calm (m (r_g s)) -> rcalm (on_g m s).
  Proof. intros I C. unfold on_g. destruct (m (r_g s)); simpl in *; auto; try contradiction; apply neat_g; auto. Qed.
  Lemma neat_alloc s f : neat s -> built f -> neat (snd (alloc s f)).
  Proof. intros [Hb Z] B. split; auto. intros k. simpl. unfold fupd. destruct (k =? r_top s); auto. Qed.
  Lemma sized_of s f : neat s -> sized (r_h s f).
  Proof. intros I. apply good_sized, neat_solids. auto. Qed.
  Lemma f_find_halts (f : func N) c : halts (f_find f c).
  Proof.
    unfold f_find, sparse_find. destruct (f_data f).
    - apply halts_bind; [|intros; apply halts_ok]. apply halts_bind. apply hash_loop_halts. intros; apply halts_ok.
    - apply halts_bind. apply hash_loop_halts. intros; apply vget_halts.
  Qed.

  (** {1 Insertions} *)
  Lemma rcalm_add_const d s : neat s -> rcalm (add_const d s).
  Proof.
    intros I. unfold add_const. apply rcalm_bind. apply rcalm_on; auto. apply calm_add. apply neat_solids; auto. apply I.
    intros _ t _ It. destruct d; exact It.
  Qed.
  Lemma clone_halts' f : sized f -> halts (factor_clone_transformed (N:=N) f).
  Proof.
    intros S. unfold factor_clone_transformed. apply halts_bind. apply f_each_halts; auto. intros es _. apply (rfold_halts (fun _ => True)); auto.
    intros g e _ _. split; auto. apply f_set_halts.
  Qed.
  Lemma rcalm_copy_const f s : neat s -> rcalm (copy_const f s).
  Proof.
    intros I. unfold copy_const. apply rcalm_lift_bind; auto. apply clone_halts', sized_of; auto. intros c Ec. cbn [alloc].
    apply rcalm_add_const. apply (neat_alloc s c); auto. eapply b_clone; eauto. apply I.
  Qed.
  Lemma rcalm_absorb_const l copy s : neat s -> rcalm (absorb_const l copy s).
  Proof.
    intros I. unfold absorb_const. apply rcalm_fold; auto. intros f t _ It. apply rcalm_catch. destruct copy. apply rcalm_copy_const; auto. apply rcalm_add_const; auto.
  Qed.
  Lemma rcalm_set_weight w b s : neat s -> rcalm (base_set_weight w b s).
  Proof.
    intros I. unfold base_set_weight. apply rcalm_lift_bind; auto. unfold exp_set_weight. destruct (f_exp _); discriminate.
    intros f Ef. split; [|apply I]. intros k. cbn [r_h set_h]. unfold fupd. destruct (k =? bt_fac b). eapply b_weight; [|exact Ef]. apply I. apply I.
  Qed.
  Lemma rcalm_tuner_weight t w s : neat s -> rcalm (tuner_set_weight t w s).
  Proof. intros I. unfold tuner_set_weight. apply rcalm_fold; auto. intros; apply rcalm_set_weight; auto. Qed.
  Lemma make_finder_halts (f : func N) vs : halts (make_finder f vs).
  Proof.
    unfold make_finder, get_indices. apply halts_bind; [|intros; apply halts_ok]. destruct (_ <? _). discriminate. apply rmap_halts. intros v _. destruct (find_var vs v); discriminate.
  Qed.
  Lemma node_of_halts (g : gst) v : halts (node_of g v).
  Proof. unfold node_of. destruct (locate g v) as [[a l]|]; discriminate. Qed.
  Lemma make_tuner_halts s f : halts (make_tuner s f).
  Proof.
    unfold make_tuner. destruct (f_vars (r_h s f)) as [|v [|w [|x l]]]; try discriminate.
    - apply halts_bind. apply node_of_halts. intros a _. apply halts_bind. apply make_finder_halts. intros; apply halts_ok.
    - apply halts_bind. apply node_of_halts. intros a _. apply halts_bind. apply node_of_halts. intros b _. apply halts_bind. apply make_finder_halts. intros fd _.
      apply halts_bind. apply node_var_halts. intros va _. apply halts_bind. apply node_var_halts. intros vb _. destruct (_ && _); discriminate.
  Qed.
  Lemma tuner_weight_halts h t : halts (tuner_weight (N:=N) h t).
  Proof. destruct t as [b|[|b l]]; simpl; try discriminate; unfold exp_get_weight; destruct (f_exp _); discriminate. Qed.
  Lemma rcalm_add_tunable d share s : neat s -> rcalm (add_tunable d share s).
  Proof.
    intros I. unfold add_tunable. apply rcalm_bind. apply rcalm_on; auto. apply calm_add. apply neat_solids; auto. apply I.
    intros _ t _ It. destruct d as [f|]; [|exact Logic.I]. apply rcalm_lift_bind; auto. apply make_tuner_halts. intros b _.
    assert (I2 : neat (set_tun t (r_tun t ++ [f]))) by exact It. destruct share as [group|]; [|exact It].
    unfold find_tuner. destruct (find_pos _ _) as [i|]; cbn [lift obind]; [|exact It].
    apply rcalm_lift_bind. exact It. apply vget_halts. intros old _. apply rcalm_lift_bind. exact It. apply tuner_weight_halts. intros w _. apply rcalm_tuner_weight. exact It.
  Qed.
  Lemma rcalm_copy_tunable f share s : neat s -> rcalm (copy_tunable f share s).
  Proof.
    intros I. unfold copy_tunable. apply rcalm_lift_bind; auto.
    - unfold exp_copy, exp_get_weight. destruct (f_exp _); [|discriminate]. cbn [rbind]. unfold exp_ctor. apply halts_bind. apply f_each_halts, sized_of; auto. intros; apply halts_ok.
    - intros c Ec. cbn [alloc]. apply rcalm_add_tunable. apply (neat_alloc s c); auto. eapply b_expcopy; eauto. apply I.
  Qed.
  Lemma rcalm_insert copy f share s : neat s -> rcalm (insert_tunable copy f share s).
  Proof. destruct copy. apply rcalm_copy_tunable. apply rcalm_add_tunable. Qed.
  Lemma rcalm_absorb_tunable copy l s : neat s -> rcalm (absorb_tunable copy l s).
  Proof. intros I. unfold absorb_tunable. apply rcalm_fold; auto. intros f t _ It. apply rcalm_catch, rcalm_insert; auto. Qed.
  Lemma rcalm_absorb_clusters copy cs s : neat s -> rcalm (absorb_clusters copy cs s).
  Proof.
    intros I. unfold absorb_clusters. apply rcalm_fold; auto. intros c t _ It. apply rcalm_catch. unfold absorb_cluster. destruct c as [|f c]; [exact Logic.I|].
    apply rcalm_bind. apply rcalm_insert; auto. intros _ u _ Iu. apply rcalm_fold; auto. intros; apply rcalm_insert; auto.
  Qed.

  (** {1 Weights and gradient} *)
  Lemma rcalm_set_weights ws s : neat s -> rcalm (set_weights ws s).
  Proof.
    intros I. unfold set_weights. destruct (_ =? _); [|exact I]. apply rcalm_bind. apply rcalm_fold; auto. intros; apply rcalm_tuner_weight; auto.
    intros _ t _ It. apply neat_g; auto. apply (szd_same (r_g t)); auto. apply It.
  Qed.
  Lemma get_weights_halts s : halts (get_weights s).
  Proof. unfold get_weights. apply rmap_halts. intros; apply tuner_weight_halts. Qed.
  Lemma rcalm_ones s : neat s -> rcalm (set_all_ones s).
  Proof. intros I. unfold set_all_ones. apply rcalm_lift_bind; auto. apply get_weights_halts. intros; apply rcalm_set_weights; auto. Qed.

  Lemma alpha_halts h samples b : halts (base_alpha (N:=N) h samples b).
  Proof.
    unfold base_alpha. apply (rfold_halts (fun _ => True)); auto. intros x c _ _. split; auto. apply halts_bind; [|intros; apply halts_ok].
    unfold fd_find. apply halts_bind. apply extract_halts. intros; apply f_find_halts.
  Qed.
  Lemma dot_halts (f : func N) probs : sized f -> halts (dot_product f probs).
  Proof.
    intros S. unfold dot_product. apply halts_bind. apply f_each_halts; auto. intros es _. generalize (n0 : N).
    revert probs. induction es as [|[c x] es IH]; intros [|p probs] d; simpl; try discriminate. apply IH.
  Qed.
  Lemma outer_halts e (g : gst) a b : env_ok e -> szd g -> halts (outer_marginal e g a b).
  Proof.
    intros E Z. unfold outer_marginal. destruct (nd_merged (g_node g a)) as [m|] eqn:Em; [|discriminate].
    match goal with |- context [merged_unaries ?l] => destruct (merged_unaries_halts l) as [M1 M2] end.
    { intros f J. apply permute_incl in J; [|apply (proj1 E)]. destruct J as [J|J]. injection J as <-. eapply (sz_merged g Z); eauto.
      apply in_map_iff in J as (k & Q & _). destruct (act g a k) as [c|] eqn:Ac; [|discriminate]. eapply (sz_act g Z); eauto. }
    apply halts_bind; auto. intros mg Eg. apply probabilities_halts; auto.
  Qed.
  Lemma beta_halts h e (g : gst) b : env_ok e -> (forall f, sized (h f)) -> szd g -> halts (base_beta h e g b).
  Proof.
    intros E S Z. unfold base_beta. destruct (bt_kind b) as [a|x y|x y first].
    - unfold unary_beta. destruct (incoming_halts e g a Z) as [I1 I2]. apply halts_bind; auto. intros m Em. apply halts_bind. apply probabilities_halts; auto.
      intros; apply dot_halts; auto.
    - unfold binary_beta. apply halts_bind. apply outer_halts; auto. intros ma _. apply halts_bind. apply outer_halts; auto. intros mb _.
      apply halts_bind. apply f_each_halts; auto. intros es _. apply halts_bind.
      + apply rmap_halts. intros p _. repeat (apply halts_bind; [apply vget_halts|intros]). apply halts_ok.
      + intros ps _. destruct (ndz _). discriminate. apply dot_halts; auto.
    - unfold hidobs_beta. destruct (incoming_halts e g x Z) as [I1 I2]. apply halts_bind; auto. intros m Em. apply halts_bind. apply probabilities_halts; auto.
      intros ps _. destruct (g_ev g y); [|discriminate]. apply (rfold_halts (fun _ => True)); auto. intros r p _ _. split; auto.
      apply halts_bind. apply f_find_halts. intros; apply halts_ok.
  Qed.
  Lemma tuner_sum_halts (m : btuner -> res N) t : (forall b, halts (m b)) -> halts (tuner_sum m t).
  Proof.
    intros M. destruct t; simpl; auto. apply (rfold_halts (fun _ => True)); auto. intros x b _ _. split; auto. apply halts_bind; auto. intros; apply halts_ok.
  Qed.
  Lemma iter_halts it : halts (iter_samples it).
  Proof. unfold iter_samples. destruct (ti_subset it) as [l|]; [|discriminate]. apply rmap_halts. intros; apply vget_halts. Qed.
  Lemma rcalm_scoped {A} n (body : rst -> out rst A) s : neat s -> (forall t, neat t -> rcalm (body t)) -> rcalm (scoped n body s).
  Proof.
    intros I K. unfold scoped. apply rcalm_bind.
    - apply rcalm_on; auto. unfold set_pool_size. destruct (g_pool (r_g s)) as [pl|]; simpl. destruct (n =? pl). apply I. destruct (n =? 0); simpl; apply (szd_same (r_g s)); auto; apply I.
      exact Logic.I.
    - intros _ t _ It. specialize (K t It). destruct (body t) as [a u|u| | |]; simpl in *; auto; (apply neat_g; [auto|]); apply (szd_same (r_g u)); auto; apply K.
  Qed.
  Lemma rcalm_rf_gradient e it s : env_ok e -> neat s -> rcalm (rf_gradient e it s).
  Proof.
    intros E I. unfold rf_gradient. apply rcalm_bind. { destruct (existsb _ _); [|exact I]. apply rcalm_on; auto. apply calm_remove_all. apply I. }
    intros _ t _ It. assert (I2 : neat (set_g t (reset_belief (r_g t)))). { apply neat_g; auto. apply (szd_same (r_g t)); auto. apply It. }
    apply rcalm_bind. apply rcalm_on; auto. apply calm_propagate. apply neat_solids; auto. apply I2.
    intros _ u _ Iu. destruct (g_pool (r_g u)); [|exact Iu]. apply rcalm_lift; auto. apply halts_bind. apply iter_halts. intros samples _.
    apply rmap_halts. intros x _. apply halts_bind. apply tuner_sum_halts. intros; apply alpha_halts. intros a _. apply halts_bind; [|intros; apply halts_ok].
    apply tuner_sum_halts. intros b. apply beta_halts; auto. intros f; apply sized_of; auto. apply Iu.
  Qed.
  Lemma rcalm_map {A} (f : A -> answer (N:=N)) (o : out rst A) : rcalm o -> rcalm (rmapo f o).
  Proof. destruct o; simpl; auto. Qed.
  Theorem rcall_calm e op s : neat s -> rok op s -> env_ok e -> rcalm (rcall e op s).
  Proof.
    intros I Hop E. destruct op; cbn [rcall]; try apply rcalm_map.
    - apply (neat_alloc s f); auto.
    - apply rcalm_add_const; auto.
    - apply rcalm_copy_const; auto.
    - apply rcalm_absorb_const; auto.
    - apply rcalm_add_tunable; auto.
    - apply rcalm_copy_tunable; auto.
    - apply rcalm_absorb_tunable; auto.
    - apply rcalm_absorb_clusters; auto.
    - apply rcalm_set_weights; auto.
    - apply rcalm_ones; auto.
    - apply rcalm_scoped; auto. intros; apply rcalm_rf_gradient; auto.
    - apply rcalm_on; auto. apply calm_call; auto. apply neat_solids; auto. apply I.
  Qed.
  Lemma neat_empty h top : (forall f, built (h f)) -> neat (r_empty h top).
  Proof. intros Hb. split; auto. apply szd_empty. Qed.
  Theorem rreach_neat h top G s : (forall f, built (h f)) -> rreach h top G s -> neat s.
  Proof.
    intros Hb R. induction R as [|s e op a s' R IH Hop _ E Q|s e op s' R IH Hop _ E Q]. apply neat_empty; auto.
    - pose proof (rcall_calm e op s IH Hop E) as C. rewrite Q in C. exact C.
    - pose proof (rcall_calm e op s IH Hop E) as C. rewrite Q in C. exact C.
  Qed.

  (** {1 Samples} *)
  Lemma calm_node_list (H : nat -> func N) e l : solids H -> forall g : gst, szd g -> calm (make_node_list H e l g) /\
    forall ns g', make_node_list H e l g = Ret ns g' -> Forall (fun nd => sized (sn_static nd)) ns.
  Proof.
    intros HG. induction l as [|a l IH]; intros g Z; simpl. split; auto. intros ns g' [= <- <-]. constructor.
    assert (M : calm (make_node H e a g) /\ forall nd g', make_node H e a g = Ret nd g' -> sized (sn_static nd)).
    { unfold make_node. pose proof (calm_update_merged H HG e a g Z) as U. destruct (update_merged H e a g) as [[] g1|g1| | |]; simpl in *; try (split; [auto|intros; discriminate]).
      destruct (node_var g1 a) as [v| | | |] eqn:Ev; simpl; try (split; [auto|intros; discriminate]). 2:{ destruct (node_var_halts g1 a). auto. }
      unfold comb_pos. destruct (find_node g1 v) as [p|]; simpl; [|split; [auto|intros; discriminate]].
      destruct (nd_merged (g_node g1 a)) as [m|] eqn:Em; [|split; [auto|intros; discriminate]].
      match goal with |- context [lift ?r g1] => assert (HR : halts r); [|destruct r eqn:Er; simpl; try (split; [auto|intros; discriminate])] end.
      - apply rmap_halts. intros b _. destruct (act g1 a b); [|discriminate]. apply halts_bind. apply node_var_halts. intros w _. apply halts_bind. destruct (find_node g1 w); discriminate. intros; apply halts_ok.
      - split; auto. intros nd g' [= <- <-]. simpl. eapply (sz_merged g1 U); eauto. }
    destruct M as [M1 M2]. destruct (make_node H e a g) as [nd g1|g1| | |]; simpl in *; try (split; [auto|intros; discriminate]).
    destruct (IH g1 M1) as [L1 L2]. destruct (make_node_list H e l g1) as [ns g2|g2| | |]; simpl in *; try (split; [auto|intros; discriminate]).
    split; auto. intros ns' g' [= <- <-]. constructor; eauto.
  Qed.
  Lemma rmap_from {A B} (f : A -> res B) l : forall bs b, rmap f l = Ok bs -> In b bs -> exists a, In a l /\ f a = Ok b.
  Proof.
    induction l as [|a l IH]; simpl; intros bs b Q J. injection Q as <-. destruct J.
    apply rbind_ok in Q as (x & Ex & Q). apply rbind_ok in Q as (xs & Exs & Q). injection Q as <-. destruct J as [<-|J]; eauto.
    destruct (IH _ _ Exs J) as (a' & J' & Q). eauto.
  Qed.
  Lemma value_halts (H : nat -> func N) nd comb x : (forall f, sized (H f)) -> sized (sn_static nd) -> halts (sample_value H nd comb x).
  Proof.
    intros S SN. unfold sample_value. apply halts_bind. { apply rmap_halts. intros d _. apply halts_bind. apply vget_halts. intros; apply evidence_factor_halts; auto. }
    intros evs Ee. destruct (merged_unaries_halts (Some (sn_static nd) :: map Some evs)) as [M1 M2].
    { intros f [Q|J]. injection Q as <-; auto. apply in_map_iff in J as (f' & Q & J). injection Q as <-.
      destruct (rmap_from _ _ _ _ Ee J) as (d & Jd & Q). apply rbind_ok in Q as (k & _ & Q). eapply evidence_halts; [|exact Q]. apply S. }
    destruct (merged_unaries _) as [m| | | |]; try discriminate.
    - apply halts_bind. apply probabilities_halts; auto. intros; apply halts_ok.
    - apply halts_bind. apply vget_halts. intros; apply halts_ok.
    - destruct M1. auto.
  Qed.
  Section Samples.
    Variable H : nat -> func N.
    Hypothesis HG : solids H.
    Variable draw : nat -> nat -> N.
    Notation fine nds := (Forall (fun nd : snode (N:=N) => sized (sn_static nd)) nds).
    Lemma batch_halts pool b : fine b -> forall k st, halts (batch_loop H draw pool k b st).
    Proof.
      induction 1 as [|nd b S _ IH]; intros k st; simpl. discriminate. apply halts_bind; [|intros; apply IH]. unfold sample_task.
      apply halts_bind. apply value_halts; auto. intros f; apply good_sized, HG. intros x _. apply halts_bind. apply vset_halts. intros; apply halts_ok.
    Qed.
    Lemma evolve_halts pool bs : Forall (fun b => fine b) bs -> forall n st, halts (evolve H draw pool bs n st).
    Proof.
      intros F. induction n as [|n IH]; intros st; simpl. discriminate. apply halts_bind; [|intros; apply IH]. unfold sweep. apply (rfold_halts (fun _ => True)); auto.
      intros u b J _. split; auto. rewrite Forall_forall in F. apply batch_halts; auto.
    Qed.
    Lemma collect_halts pool bs d : Forall (fun b => fine b) bs -> forall n st, halts (collect H draw pool bs d n st).
    Proof.
      intros F. induction n as [|n IH]; intros st; simpl. discriminate. apply halts_bind. apply evolve_halts; auto. intros st' _. apply halts_bind. apply IH. intros; apply halts_ok.
    Qed.
    (** each batch takes at least the first of the nodes left *)
    Lemma gibbs_batch_fine l : fine l -> forall sn wl b o, gibbs_batch l sn wl = (b, o) -> fine b /\ fine o /\ length o <= length l.
    Proof.
      induction 1 as [|nd l S F IH]; intros sn wl b o Q; simpl in Q. injection Q as <- <-. splits; auto.
      destruct (_ && _).
      - destruct (gibbs_batch l (sn ++ map d_pos (sn_deps nd)) (wl ++ [sn_pos nd])) as [b' o'] eqn:E. injection Q as <- <-. destruct (IH _ _ _ _ E) as (A & B & C). splits; auto. simpl; lia.
      - destruct (gibbs_batch l sn wl) as [b' o'] eqn:E. injection Q as <- <-. destruct (IH _ _ _ _ E) as (A & B & C). splits; auto. simpl; lia.
    Qed.
    Lemma gibbs_batches_fine fuel : forall l, length l <= fuel -> fine l -> halts (gibbs_batches fuel l) /\ forall bs, gibbs_batches fuel l = Ok bs -> Forall (fun b => fine b) bs.
    Proof.
      induction fuel as [|fuel IH]; intros [|nd l] L F; simpl in *; try lia; try (split; [discriminate|intros bs [= <-]; constructor]).
      assert (E0 : existsb (fun d : sdep => mem (d_pos d) []) (sn_deps nd) = false). { induction (sn_deps nd); simpl; auto. }
      assert (E1 : forall l0 : list (sdep), existsb (fun _ => false) l0 = false) by (induction l0; simpl; auto).
      change (mem (sn_pos nd) []) with false. rewrite ?E0, ?E1. simpl. inversion F as [|? ? F1 F2]; subst.
      destruct (gibbs_batch l (map d_pos (sn_deps nd)) [sn_pos nd]) as [b o] eqn:Q. destruct (gibbs_batch_fine l F2 _ _ _ _ Q) as (A & B & C).
      destruct (IH o) as [X Y]; auto. lia. split. apply halts_bind; auto. intros; apply halts_ok.
      intros bs Z. apply rbind_ok in Z as (bs' & Zb & Z). injection Z as <-. constructor; auto.
    Qed.
    Lemma calm_samples e ceil10 c n (g : gst) : szd g -> calm (make_samples H draw e ceil10 c n g).
    Proof.
      intros Z. unfold make_samples. apply calm_scoped; auto. intros g1 Z1. destruct (delta_burn ceil10 c) as [d b]. unfold make_nodes.
      match goal with |- context [make_node_list H e ?l g1] => destruct (calm_node_list H e l HG g1 Z1) as [M1 M2]; destruct (make_node_list H e l g1) as [ns g2|g2| | |] end; simpl in *; auto.
      specialize (M2 _ _ eq_refl). destruct (g_pool g2) as [pool|]; [|exact M1]. apply calm_lift; auto.
      assert (B : halts (gibbs_order pool ns) /\ forall bs, gibbs_order pool ns = Ok bs -> Forall (fun b => fine b) bs).
      { unfold gibbs_order. destruct (pool =? 1). split. discriminate. intros bs [= <-]. constructor; auto. apply gibbs_batches_fine; auto. }
      destruct B as [B1 B2]. apply halts_bind; auto. intros bs Eb. apply halts_bind. apply evolve_halts; auto. intros; apply collect_halts; auto.
    Qed.
  End Samples.

  (** {1 Conditional random fields} *)
  Lemma rcalm_set_evidences e values s : neat s -> rcalm (set_evidences e values s).
  Proof.
    intros I. unfold set_evidences. destruct (_ =? _); [|exact I]. apply rcalm_fold; auto. intros p t _ It. apply rcalm_lift_bind; auto. apply node_var_halts. intros v _.
    apply rcalm_on; auto. apply calm_set_evidence. apply neat_solids; auto. apply It.
  Qed.
  Lemma rcalm_sample_evidences e pos comb s : neat s -> rcalm (sample_evidences e pos comb s).
  Proof.
    intros I. unfold sample_evidences. apply rcalm_fold; auto. intros p t _ It. apply rcalm_lift_bind; auto. apply node_var_halts. intros v _.
    apply rcalm_lift_bind; auto. apply vget_halts. intros i _. apply rcalm_lift_bind; auto. apply vget_halts. intros x _.
    apply rcalm_on; auto. apply calm_set_evidence. apply neat_solids; auto. apply It.
  Qed.
  Lemma rcalm_betas es pos coeff samples : (forall k, env_ok (es k)) -> forall k betas s, neat s -> rcalm (crf_betas es pos coeff k samples betas s).
  Proof.
    intros E. induction samples as [|c r IH]; intros k betas s I; simpl. exact I.
    apply rcalm_bind. apply rcalm_sample_evidences; auto. intros _ t _ It. apply rcalm_bind. apply rcalm_on; auto. apply calm_propagate. apply neat_solids; auto. apply It.
    intros _ u _ Iu. destruct (g_pool (r_g u)); [|exact Iu]. apply rcalm_lift_bind; [auto| |intros; apply IH; auto].
    apply rmap_halts. intros p _. apply halts_bind; [|intros; apply halts_ok]. apply tuner_sum_halts. intros b. apply beta_halts; auto. intros f; apply sized_of; auto. apply Iu.
  Qed.
  Lemma rcalm_crf_gradient es pos it s : (forall k, env_ok (es k)) -> neat s -> rcalm (crf_gradient es pos it s).
  Proof.
    intros E I. unfold crf_gradient. destruct (g_pool (r_g s)); [|exact I]. apply rcalm_lift_bind; auto. apply iter_halts. intros samples _.
    apply rcalm_lift_bind; auto. apply rmap_halts. intros t _. apply tuner_sum_halts. intros; apply alpha_halts. intros alfas _.
    apply rcalm_bind. apply rcalm_betas; auto. intros; simpl; auto.
  Qed.
  (** the number of combinations asked with a percentage is not greater than the one of all of them *)
  Definition no_more (floorf : N -> nat) : Prop := forall n p, nltb n1 p = false -> nltb p n0 = false -> floorf (nofnat n * p)%num <= n.
  Lemma range_get_halts r : halts (range_get r).
  Proof. unfold range_get. destruct r; discriminate. Qed.
  Lemma rcalm_all_loop body cs : (forall k c t, neat t -> rcalm (body k c t)) -> forall n acc s, neat s -> rcalm (all_loop (N:=N) body n cs acc s).
  Proof. intros B. induction cs as [|c cs IH]; intros n acc s I; simpl. exact I. apply rcalm_bind. apply B; auto. intros x t _ It. apply IH; auto. Qed.
  Lemma range_incr_halts r : halts (range_incr r).
  Proof.
    unfold range_incr. destruct r as [d|]; [|discriminate]. destruct (length (r_comb d)) as [|k]; [discriminate|]. apply halts_bind; [|intros [c|] _; discriminate].
    generalize (r_comb d). induction k as [|k IH]; intros c; cbn [incr_loop]; (apply halts_bind; [apply vget_halts|]); intros x _; (apply halts_bind; [apply vget_halts|]); intros y _;
      destruct (S x =? y); try discriminate; apply halts_bind; try apply vset_halts; intros; try discriminate. apply IH.
  Qed.
  Lemma range_advance_halts n : forall r, halts (range_advance n r).
  Proof. induction n as [|n IH]; intros r; simpl. discriminate. apply halts_bind. apply range_incr_halts. intros; apply IH. Qed.
  Lemma rcalm_some_loop body fuel : (forall k c t, neat t -> rcalm (body k c t)) -> forall n delta max k r acc s, Z0 \/ 1 <= delta /\ max <= k + fuel -> neat s ->
    rcalm (some_loop (N:=N) body fuel n delta max k r acc s).
  Proof.
    intros B. induction fuel as [|fuel IH]; intros n delta max k r acc s D I; simpl.
    - destruct (Nat.ltb_spec k max); [|exact I]. destruct D as [D|D]; [exact D|lia].
    - destruct (k <? max); [|exact I]. apply rcalm_lift_bind; auto. apply range_get_halts. intros c _. apply rcalm_bind. apply B; auto. intros x t _ It.
      destruct (max <=? k + delta). exact It. apply rcalm_lift_bind; auto. apply range_advance_halts. intros r' _. apply IH; auto. destruct D; auto. right. lia.
  Qed.
  Lemma observed_sized e (g : gst) v : env_ok e -> szd g -> In v (observed_order e g) -> 0 < vsize v.
  Proof.
    intros E Z J. unfold observed_order in J. apply permute_incl in J; [|apply (proj1 E)]. unfold observed_variables in J. pose proof (sz_vars g Z) as F. rewrite Forall_forall in F.
    revert J. assert (A : forall acc, (forall w, In w acc -> 0 < vsize w) -> forall l w, In w (fold_left (fun acc a => match nth_error (g_vars g) a with Some v => vset_add acc v | None => acc end) l acc) -> 0 < vsize w).
    { intros acc Ha l. revert acc Ha. induction l as [|a l IH]; simpl; intros acc Ha w J. auto. apply (IH _) in J; auto. intros u Ju.
      destruct (nth_error (g_vars g) a) as [x|] eqn:X; auto. unfold vset_add in Ju. destruct (vset_mem acc x); auto. apply in_app_or in Ju as [Ju|[<-|[]]]; auto. apply F. eapply nth_error_In; eauto. }
    apply A. intros w [].
  Qed.
  Lemma rcalm_train draw floorf ceil10 e es ctx p n s : env_ok e -> Z0 \/ no_more floorf -> neat s -> rcalm (make_crf_train_set draw floorf ceil10 e es ctx p n s).
  Proof.
    intros E NM I. unfold make_crf_train_set. destruct (nltb n1 p) eqn:P1; [exact I|]. destruct (nltb p n0) eqn:P0; [exact I|]. cbn [orb].
    assert (B : forall k c t, neat t -> rcalm (emplace_samples draw ceil10 es ctx n k c t)).
    { intros k c t It. unfold emplace_samples. apply rcalm_bind. apply rcalm_set_evidences; auto. intros _ u _ Iu. apply rcalm_on; auto. apply calm_samples. apply neat_solids; auto. apply Iu. }
    apply rcalm_lift_bind; auto. { unfold group_ctor. destruct (_ =? 0). discriminate. destruct (_ =? _); discriminate. }
    intros g Eg. assert (SZ : Forall (lt 0) (map vsize (g_soup g))).
    { unfold group_ctor in Eg. destruct (_ =? 0). discriminate. destruct (_ =? _); [|discriminate]. injection Eg as <-. cbn [g_soup].
      apply Forall_forall. intros x J. apply in_map_iff in J as (v & <- & J). eapply observed_sized; eauto. apply I. }
    destruct (neqb n1 p).
    - apply rcalm_lift_bind; auto. apply range_halts; auto. intros; apply rcalm_all_loop; auto.
    - destruct (floorf _) as [|m] eqn:Ef. exact Logic.I. apply rcalm_some_loop; auto. destruct NM as [NM|NM]; auto. right. pose proof (NM (group_size g) p P1 P0) as L.
      rewrite Ef in L. split; [|lia]. apply Nat.div_le_lower_bound; lia.
  Qed.
  Lemma rcalm_ccall e pos op s : neat s -> cok op -> env_ok e -> (forall draw floorf ceil10 es ctx p n, op = CTrain draw floorf ceil10 es ctx p n -> Z0 \/ no_more floorf) -> rcalm (ccall e pos op s).
  Proof.
    assert (M : forall A (f : A -> canswer (N:=N)) (o : out rst A), rcalm o -> rcalm (cmapo f o)) by (intros A f o; destruct o; simpl; auto).
    intros I K E T. destruct op; cbn [ccall cok] in *; apply M.
    - apply rcalm_set_evidences; auto.
    - apply rcalm_on; auto. apply calm_call; auto. apply neat_solids; auto. apply I.
    - apply rcalm_set_weights; auto.
    - apply rcalm_ones; auto.
    - apply rcalm_scoped; auto. intros; apply rcalm_crf_gradient; auto.
    - apply rcalm_on; auto. apply calm_samples. apply neat_solids; auto. apply I.
    - apply rcalm_train; eauto.
  Qed.
  Lemma replace_halts s b : halts (replace_if_needed s b).
  Proof.
    unfold replace_if_needed. destruct (f_vars _) as [|v [|w [|x l]]]; try discriminate.
    - destruct (observed_at _ v); discriminate.
    - destruct (observed_at _ v), (observed_at _ w); try discriminate; destruct (find_node _ _); try discriminate;
        (apply halts_bind; [apply make_finder_halts|]); intros fd _; (apply halts_bind; [apply node_var_halts|]); intros; apply halts_ok.
  Qed.
  Lemma rcalm_ctor e src copy : neat src -> rcalm (crf_ctor e src copy).
  Proof.
    intros I. unfold crf_ctor. apply rcalm_bind; [|intros; simpl; auto]. unfold crf_absorb. pose proof (neat_empty (r_h src) (r_top src) (proj1 I)) as I0.
    destruct (keys _ _). exact I0. apply rcalm_bind. apply rcalm_absorb_const; auto. intros _ s1 _ I1. apply rcalm_bind. apply rcalm_absorb_clusters; auto. intros _ s2 _ I2.
    apply rcalm_bind.
    - apply rcalm_fold; auto. intros a t _ It. apply rcalm_lift_bind; auto. apply node_var_halts. intros v _. destruct (g_ev (r_g src) a); [|exact Logic.I].
      apply rcalm_lift_bind; auto. apply find_variable_halts. intros w _. apply rcalm_on; auto. apply calm_set_evidence. apply neat_solids; auto. apply It.
    - intros _ s3 _ I3. apply rcalm_lift_bind; auto. apply rmap_halts. intros t _. destruct t; simpl; (apply halts_bind; [|intros; apply halts_ok]). apply replace_halts. apply rmap_halts. intros; apply replace_halts.
  Qed.
End FieldHalt.

Section CRFHalt.
  Context {N : num}.
  Notation crf := (crf (N:=N)).
  (** whatever the conditional random field: [creach] does not restrict the numbers
      asked to [makeTrainSet] *)
  Lemma ctor_neat e (src : rst (N:=N)) copy c s : neat src -> crf_ctor e src copy = Ret c s -> neat (c_r c).
  Proof.
    intros I Q. pose proof (rcalm_ctor True e src copy I) as X. rewrite Q in X. simpl in X. unfold crf_ctor in Q.
    destruct (crf_absorb _ _ _ _); simpl in Q; try discriminate. injection Q as <- <-. exact X.
  Qed.
  Lemma creach_neat (c : crf) : creach c -> neat (c_r c).
  Proof.
    induction 1 as [h top src e copy c s Hb R E Q|c0 e c s R IH E Q|c e op a s R IH K E Q|c e op s R IH K E Q]; cbn [c_r] in *.
    - eapply ctor_neat; [|exact Q]. eapply (rreach_neat True); eauto.
    - eapply ctor_neat; [|exact Q]. auto.
    - pose proof (rcalm_ccall True e (c_pos c) op (c_r c) IH K E (fun _ _ _ _ _ _ _ _ => or_introl Logic.I)) as X. rewrite Q in X. exact X.
    - pose proof (rcalm_ccall True e (c_pos c) op (c_r c) IH K E (fun _ _ _ _ _ _ _ _ => or_introl Logic.I)) as X. rewrite Q in X. exact X.
  Qed.
  Theorem creach_halts (c : crf) e op : creach c -> cok op -> env_ok e ->
    (forall draw floorf ceil10 es ctx p n, op = CTrain draw floorf ceil10 es ctx p n -> no_more floorf) -> ccall e (c_pos c) op (c_r c) <> NoStop.
  Proof.
    intros R K E T Q. pose proof (rcalm_ccall False e (c_pos c) op (c_r c) (creach_neat c R) K E (fun d f ce es x p n H => or_intror (T d f ce es x p n H))) as X. rewrite Q in X. exact X.
  Qed.
  Theorem ctor_halts e (src : rst (N:=N)) copy : neat src -> crf_ctor e src copy <> NoStop.
  Proof. intros I Q. pose proof (rcalm_ctor False e src copy I) as X. rewrite Q in X. exact X. Qed.
  Theorem rreach_halts h top G (s : rst (N:=N)) e op : (forall f, built (h f)) -> rreach h top G s -> rok op s -> env_ok e -> rcall e op s <> NoStop.
  Proof. intros Hb R Hop E Q. pose proof (rcall_calm False e op s (rreach_neat True h top G s Hb R) Hop E) as X. rewrite Q in X. exact X. Qed.

  (** {1 Trainings} *)
  Lemma rcalm_run (gradient : nat -> titer -> rst (N:=N) -> out rst (list N)) get : (forall k it s, neat s -> rcalm False (gradient k it s)) -> (forall k, halts (get k)) ->
    forall t k s, neat s -> rcalm False (run_trainer gradient get t k s).
  Proof.
    intros G Hg. induction t as [| |next IH|ws next IH|next IH]; intros k s I; simpl; auto.
    - apply rcalm_lift_bind; auto. apply get_weights_halts.
    - apply rcalm_bind. apply rcalm_set_weights; auto. intros; apply IH; auto.
    - apply rcalm_lift_bind; auto. intros it _. apply rcalm_bind. apply G; auto. intros; apply IH; auto.
  Qed.
  Lemma iter_ctor_halts floorf rand combs (p : N) : halts (iter_ctor floorf rand combs p).
  Proof.
    unfold iter_ctor. destruct (neqb n1 p). discriminate. destruct (_ || _). discriminate. apply halts_bind; [|intros; apply halts_ok]. apply rmap_halts. intros k _. destruct (length combs); discriminate.
  Qed.
  Lemma train_halts floorf rand (gradient : nat -> titer -> rst (N:=N) -> out rst (list N)) t combs info s :
    (forall k it s, neat s -> rcalm False (gradient k it s)) -> neat s -> rcalm False (train_model floorf rand gradient t combs info s).
  Proof.
    intros G I. unfold train_model. apply rcalm_lift_bind; auto. apply iter_ctor_halts. intros all _. apply rcalm_scoped; auto. intros u Iu. apply rcalm_run; auto.
    intros k. unfold wrapper_get. destruct (neqb _ _). discriminate. apply iter_ctor_halts.
  Qed.
End CRFHalt.
