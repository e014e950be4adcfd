(** Documents that can be imported without undefined behaviour, and what an import
    may change in a model (property C59) *)
From Coq Require Import Ascii String List Arith ZArith Bool.
From Verif Require Import Res Num Categoric Func Graph GraphSpec BeliefSpec Train TrainHist Coherent FieldHist IO Json Xml.
Import ListNotations.
Open Scope nat_scope.

(** the number written fits an [int] *)
Definition int_text (t : string) : Prop := atoi t <> UB.

(** {1 Json} *)
(** a member of an object, if it is a text *)
Definition text_member (j : json) (name : string) (P : string -> Prop) : Prop :=
  forall t, try_access j name = Some (JStr t) -> P (dump_chars t).
Definition has_member (j : json) (name : string) : Prop := forall l, j = JObj l -> exists x, jmember l name = Some x.
Definition readable_variable (x : json) : Prop := text_member x "Size" int_text /\ text_member x "evidence" int_text.
Definition readable_image (x : json) : Prop :=
  has_member x "v" /\ forall l v t, x = JObj l -> jmember l "v" = Some v -> In (JStr t) (jiter v) -> int_text (dump_chars t).
Definition readable_potential (p : json) : Prop :=
  forall d x, try_access p "Distr_val" = Some d -> In x (jiter d) -> readable_image x.
(** the members "Variables" and "Potentials" exist, each combination has a member "v",
    the integers fit an [int] *)
Definition readable (j : json) : Prop :=
  has_member j "Variables" /\ has_member j "Potentials" /\
  (forall v x, try_access j "Variables" = Some v -> In x (jiter v) -> readable_variable x) /\
  (forall p x, try_access j "Potentials" = Some p -> In x (jiter p) -> readable_potential x).
(** the names of the variables of the document, those with an evidence *)
Definition describes (j : json) (name : string) : Prop :=
  exists v x t, try_access j "Variables" = Some v /\ In x (jiter v) /\ try_access x "name" = Some (JStr t) /\ name = dump_chars t.
Definition observes (j : json) (name : string) : Prop :=
  exists v x t, try_access j "Variables" = Some v /\ In x (jiter v) /\ try_access x "name" = Some (JStr t) /\ name = dump_chars t /\
    try_access x "evidence" <> None.

(** {1 Xml} *)
Section Xml.
  Variable place : list nat -> list nat.
  Variable files : string -> option string.
  Variable prefix : string.
  Definition xml_readable_variable (x : tag) : Prop :=
    (forall t, try_attr place x "Size" = Some t -> int_text t) /\ (forall t, try_attr place x "evidence" = Some t -> int_text t).
  Definition xml_readable_image (x : tag) : Prop := forall t, In t (range place (attributes x) "v") -> int_text t.
  (** a line of a file of values: not blank, the first words are integers *)
  Definition readable_line (l : string) : Prop := tokens l <> [] /\ forall t, In t (removelast (tokens l)) -> int_text t.
  Definition xml_readable_potential (p : tag) : Prop :=
    (forall x, In x (range place (nested p) "Distr_val") -> xml_readable_image x) /\
    (forall source text l, try_attr place p "Source" = Some source -> files (prefix ++ "/" ++ source)%string = Some text -> In l (lines text) -> readable_line l).
  Definition xml_readable (t : tag) : Prop :=
    (forall x, In x (range place (nested t) "Variable") -> xml_readable_variable x) /\
    (forall x, In x (range place (nested t) "Potential") -> xml_readable_potential x).
  Definition xml_describes (t : tag) (name : string) : Prop :=
    exists x, In x (range place (nested t) "Variable") /\ try_attr place x "name" = Some name.
  Definition xml_observes (t : tag) (name : string) : Prop :=
    exists x, In x (range place (nested t) "Variable") /\ try_attr place x "name" = Some name /\ try_attr place x "evidence" <> None.
End Xml.

(** {1 What an import changes} *)
Section Grows.
  Context {N : num}.
  Notation rst := (rst (N:=N)).
  (** from [s] to [s']: the variables, the factors, the objects of [s] are still
      there, with the same weights; what is new is on variables of the document, that
      are new objects (the addresses from [next] on);
      the variables that the document does not observe keep their evidence, or have
      none if they are new *)
  Record grows (next : nat) (describes observes : string -> Prop) (s s' : rst) : Prop := {
    gr_vars : exists l, g_vars (r_g s') = g_vars (r_g s) ++ l /\ forall v, In v l -> describes (vname v) /\ next <= vid v;
    gr_facs : exists l, g_all (r_g s') = g_all (r_g s) ++ l /\ forall f v, In f l -> In v (f_vars (r_h s' f)) -> describes (vname v) /\ next <= vid v;
    gr_const : exists l, r_const s' = r_const s ++ l;
    gr_tun : exists l, r_tun s' = r_tun s ++ l;
    gr_clusters : forall k c, nth_error (tunable_clusters s) k = Some c -> exists l, nth_error (tunable_clusters s') k = Some (c ++ l);
    gr_objects : r_top s <= r_top s' /\ forall f, f < r_top s -> r_h s' f = r_h s f;
    gr_ev : forall v, In v (g_vars (r_g s')) -> ~ observes (vname v) ->
      sp_evidence (contents s') v = sp_evidence (contents s) v
  }.
End Grows.
