(** Cycles of a graph *)
From Coq Require Import List Arith Bool Lia Permutation.
Import ListNotations.
Open Scope nat_scope.

Section Cycle.
  Variable A : nat -> nat -> Prop.

  (** consecutive elements are adjacent *)
  Fixpoint walk (l : list nat) : Prop :=
    match l with
    | a :: r => match r with b :: _ => A a b | [] => True end /\ walk r
    | [] => True
    end.
  (** a simple cycle: at least three distinct nodes, each one adjacent to the
      next one and the last one to the first one *)
  Definition cycle (c : list nat) : Prop := 3 <= length c /\ NoDup c /\ walk (c ++ [hd 0 c]).

  Lemma walk_app_l l1 l2 : walk (l1 ++ l2) -> walk l1.
  Proof.
    induction l1 as [|a l1 IH]; simpl; auto. intros [E W]. split; auto. destruct l1; simpl in *; auto.
  Qed.
  Lemma walk_app_r l1 l2 : walk (l1 ++ l2) -> walk l2.
  Proof. induction l1 as [|a l1 IH]; simpl; auto. intros [E W]. auto. Qed.

  (** walks that never come back immediately *)
  Fixpoint nbw (l : list nat) : Prop :=
    match l with
    | a :: r => match r with b :: (c :: _) => a <> c | _ => True end /\ nbw r
    | [] => True
    end.

  Hypothesis irr : forall a, ~ A a a.

  Lemma nbw_cycle l : walk l -> nbw l -> NoDup l \/ exists c, cycle c /\ incl c l.
  Proof.
    induction l as [|v w IH]; intros W B. { left. constructor. }
    destruct IH as [ND|(c & Cc & I)]; [apply W|apply B| |].
    - destruct (in_dec Nat.eq_dec v w) as [I|NI]; [|left; constructor; auto]. right.
      apply in_split in I as (w1 & w2 & ->). exists (v :: w1). split; [|intros z [<-|I]; simpl; auto; right; apply in_or_app; auto].
      assert (NDv : NoDup (v :: w1)).
      { constructor. apply NoDup_remove_2 in ND. rewrite in_app_iff in ND. tauto.
        apply NoDup_remove_1 in ND. clear - ND. induction w1; simpl in *; constructor; inversion ND; subst; auto. rewrite in_app_iff in H1. tauto. }
      split; [|split; auto].
      + destruct w1 as [|p [|q w1]]; simpl in *.
        * destruct W as [W _]. destruct (irr v W).
        * destruct B as [B _]. congruence.
        * lia.
      + simpl hd. change (v :: w1 ++ v :: w2) with ((v :: w1) ++ v :: w2) in W.
        replace ((v :: w1) ++ v :: w2) with (((v :: w1) ++ [v]) ++ w2) in W by (rewrite <- app_assoc; auto).
        apply walk_app_l in W. auto.
    - right. exists c. split; auto. intros z Iz. simpl. auto.
  Qed.

  (** a set of directed edges where every edge has a predecessor *)
  Lemma stuck_cycle (S : list nat) (L : list (nat * nat)) :
    L <> [] -> (forall a b, In (a, b) L -> A a b /\ In a S /\ In b S) ->
    (forall a b, In (a, b) L -> exists z, In (z, a) L /\ z <> b) ->
    exists c, cycle c /\ incl c S.
  Proof.
    intros NE HL HP.
    assert (G : forall n, exists a b r, In (a, b) L /\ walk (a :: b :: r) /\ nbw (a :: b :: r) /\ incl (a :: b :: r) S /\ length r = n).
    { induction n as [|n IH].
      - destruct L as [|[a b] L']; [congruence|]. exists a, b, []. destruct (HL a b (or_introl eq_refl)) as (E & Ia & Ib).
        split; simpl; auto. split; auto. split; auto. split; auto. intros z [<-|[<-|[]]]; auto.
      - destruct IH as (a & b & r & I & W & B & IS & Lr). destruct (HP a b I) as (z & Iz & Nz).
        destruct (HL z a Iz) as (E & Jz & _). exists z, a, (b :: r). split; auto. split; [simpl in *; tauto|]. split; [simpl in *; tauto|].
        split; [|simpl; auto]. intros y [<-|Iy]; auto. }
    destruct (G (length S)) as (a & b & r & _ & W & B & IS & Lr).
    destruct (nbw_cycle _ W B) as [ND|(c & Cc & I)].
    - exfalso. apply (NoDup_incl_length ND) in IS. simpl in IS. lia.
    - exists c. split; auto. intros z Iz. auto.
  Qed.

  (** a rank of the directed edges that grows along the walks *)
  Lemma ranked_acyclic (S : list nat) (rank : nat -> nat -> nat) :
    (forall a b k, In a S -> In b S -> In k S -> A a b -> A k a -> k <> b -> rank k a < rank a b) ->
    forall c, cycle c -> incl c S -> False.
  Proof.
    intros R c (Lc & ND & W) I. destruct c as [|v0 [|v1 [|v2 r]]]; simpl in Lc; try lia. clear Lc.
    simpl hd in W.
    (* along a walk without repetitions the rank grows *)
    assert (G : forall l a b, walk (a :: b :: l) -> NoDup (a :: b :: l) -> incl (a :: b :: l) S ->
      exists y z l', a :: b :: l = l' ++ [y; z] /\ (rank a b <= rank y z) /\ (l <> [] -> y <> a)).
    { induction l as [|d l IH]; intros a b Wl NDl Il.
      - exists a, b, []. split; [auto|split; [auto|congruence]].
      - inversion NDl as [|? ? Na ND']; subst. destruct (IH b d) as (y & z & l' & E & Le & _); [apply Wl|auto|intros q Hq; apply Il; simpl; auto|].
        exists y, z, (a :: l'). split. { simpl. rewrite <- E. auto. } split.
        + assert (rank a b < rank b d).
          { simpl in Wl. apply R; [apply Il; simpl; auto|apply Il; simpl; auto|apply Il; simpl; auto|tauto|tauto|].
            intros ->. apply Na. simpl. auto. } lia.
        + intros _ ->. apply Na. rewrite E. apply in_or_app. simpl. auto. }
    set (cc := v0 :: v1 :: v2 :: r) in *.
    assert (Wc : walk cc) by (apply walk_app_l in W; auto).
    destruct (G (v2 :: r) v0 v1 Wc ND I) as (y & z & l' & E & Le & Ny).
    assert (Iy : In y cc) by (unfold cc; rewrite E; apply in_or_app; simpl; auto).
    assert (Iz : In z cc) by (unfold cc; rewrite E; apply in_or_app; simpl; auto).
    assert (Nyv : y <> v0) by (apply Ny; discriminate).
    assert (Wyz : A y z /\ A z v0).
    { unfold cc in W. rewrite E in W. rewrite <- app_assoc in W. apply walk_app_r in W. simpl in W. tauto. }
    assert (Nz : z <> v1).
    { intros ->. assert (N1 : ~ In v1 (v2 :: r)) by (inversion ND as [|? ? _ ND2]; inversion ND2; auto). apply N1.
      destruct l' as [|p [|q l']]; simpl in E; try discriminate.
      - injection E as _ _ E. rewrite E. simpl; auto.
      - injection E as _ _ E. rewrite E. apply in_or_app. simpl; auto. }
    assert (R1 : rank y z < rank z v0) by (apply R; auto; [apply I; simpl; auto|tauto|tauto]).
    assert (R2 : rank z v0 < rank v0 v1).
    { apply R; auto; try (apply I; simpl; auto; fail); try tauto. apply Wc. }
    lia.
  Qed.
End Cycle.

Lemma cycle_mono (A B : nat -> nat -> Prop) c : (forall x y, In x c -> In y c -> A x y -> B x y) -> cycle A c -> cycle B c.
Proof.
  intros E (L & ND & W). split; auto. split; auto.
  assert (G : forall l, incl l c -> walk A l -> walk B l).
  { induction l as [|a l IH]; simpl; intros I Wl; auto. split.
    - destruct l as [|b l]; auto. apply E; try (apply I; simpl; auto). tauto.
    - apply IH; try tauto. intros z Hz; apply I; simpl; auto. }
  apply G; auto. intros z I. apply in_app_iff in I as [I|[<-|[]]]; auto. destruct c; simpl in *; auto. lia.
Qed.
