(** What a document describes, and what a model contains when the import of the
    document has returned (property C61) *)
From Coq Require Import Ascii String List Arith ZArith Bool.
From Verif Require Import Res Num Categoric Combs Func FuncProofs FactorProofs Graph GraphSpec BeliefSpec Train TrainHist Coherent FieldHist IO Json Xml ImportSpec.
Import ListNotations.
Open Scope nat_scope.

Section Described.
  Context {N : num}.
  Notation rst := (rst (N:=N)).
  Variable atof : string -> N.

  (** a factor of a document: the names of its variables, its weight if it is an
      exponential one, if it is tunable, the variables of the factor it shares the
      weight with, its values before the exponential *)
  Record described := {
    d_names : list string;
    d_weight : option N;
    d_tunable : bool;
    d_share : option (list string);
    d_value : list nat -> N
  }.
  (** the last value given to a combination, zero if none is given *)
  Definition last_value (l : list (list nat * N)) (c : list nat) : N :=
    fold_left (fun y p => if list_eqb (fst p) c then snd p else y) l n0.
  (** the values of the correlating factor, and of the anti correlating one *)
  Definition correlating (value : list nat -> N) : Prop := forall c, (all_equal c -> value c = n1) /\ (~ all_equal c -> value c = n0).
  Definition anticorrelating (value : list nat -> N) : Prop := forall c, (all_equal c -> value c = n0) /\ (~ all_equal c -> value c = n1).

  (** {1 Json} *)
  Definition json_texts (j : json) (l : list string) : Prop := Forall2 (fun x t => exists s, x = JStr s /\ t = dump_chars s) (jiter j) l.
  Definition json_text (j : json) (name : string) (t : string) : Prop := exists s, try_access j name = Some (JStr s) /\ t = dump_chars s.
  (** a combination and its value *)
  Definition json_entry (x : json) (p : list nat * N) : Prop :=
    exists jv ts t, try_access x "v" = Some jv /\ json_texts jv ts /\ Forall2 (fun t k => read_size t = Ok k) ts (fst p) /\
      json_text x "D" t /\ snd p = atof t.
  Record json_describes (p : json) (d : described) : Prop := {
    jd_names : exists jg, try_access p "Variables" = Some jg /\ json_texts jg (d_names d);
    jd_weight : match try_access p "weight" with
                | None => d_weight d = None /\ d_tunable d = false
                | Some _ => exists t, json_text p "weight" t /\ d_weight d = Some (atof t) /\ (d_tunable d = true <-> json_text p "tunability" "Y")
                end;
    jd_share : match try_access p "Share" with
               | None => d_share d = None
               | Some js => d_tunable d = true -> exists l, d_share d = Some l /\ json_texts js l
               end;
    jd_value : match try_access p "Correlation" with
               | Some _ => json_text p "Correlation" "T" /\ correlating (d_value d) \/ json_text p "Correlation" "F" /\ anticorrelating (d_value d)
               | None => exists jd l, try_access p "Distr_val" = Some jd /\ Forall2 json_entry (jiter jd) l /\ d_value d = last_value l
               end
  }.
  (** the variables of the document: names and sizes *)
  Definition json_variable_is (x : json) (v : string * nat) : Prop :=
    json_text x "name" (fst v) /\ exists t, json_text x "Size" t /\ read_size t = Ok (snd v).

  Definition json_evidence (x : json) (o : option nat) : Prop :=
    match o with None => try_access x "evidence" = None | Some k => exists t, json_text x "evidence" t /\ read_size t = Ok k end.

  (** {1 Xml} *)
  Section Xml.
    Variable place : list nat -> list nat.
    Variable files : string -> option string.
    Variable prefix : string.
    Definition xml_entry (x : tag) (p : list nat * N) : Prop :=
      Forall2 (fun t k => read_size t = Ok k) (range place (attributes x) "v") (fst p) /\ exists t, try_attr place x "D" = Some t /\ snd p = atof t.
    Record xml_describes_factor (p : tag) (d : described) : Prop := {
      xd_names : d_names d = range place (attributes p) "var";
      xd_weight : match try_attr place p "weight" with
                  | None => d_weight d = None /\ d_tunable d = false
                  | Some t => d_weight d = Some (atof t) /\ (d_tunable d = true <-> try_attr place p "tunability" = Some "Y"%string)
                  end;
      xd_share : match mfind place (nested p) "Share" with
                 | None => d_share d = None
                 | Some t => d_tunable d = true -> d_share d = Some (range place (attributes t) "var")
                 end;
      xd_value : match try_attr place p "Correlation" with
                 | Some c => c = "T"%string /\ correlating (d_value d) \/ c = "F"%string /\ anticorrelating (d_value d)
                 | None => match try_attr place p "Source" with
                           | None => exists l, Forall2 xml_entry (range place (nested p) "Distr_val") l /\ d_value d = last_value l
                           | Some source => exists text l, files (prefix ++ "/" ++ source)%string = Some text /\
                               Forall2 (fun line x => parse_combination_image atof line = Ok x) (lines text) l /\ d_value d = last_value l
                           end
                 end
    }.
    Definition xml_variable_is (x : tag) (v : string * nat) : Prop :=
      try_attr place x "name" = Some (fst v) /\ exists t, try_attr place x "Size" = Some t /\ read_size t = Ok (snd v).
    Definition xml_evidence (x : tag) (o : option nat) : Prop :=
      match o with None => try_attr place x "evidence" = None | Some k => exists t, try_attr place x "evidence" = Some t /\ read_size t = Ok k end.
  End Xml.

  (** {1 The model} *)
  (** the factor [f] of the model is the one described; [tun]: the model has tunable
      factors *)
  Record loaded (tun : bool) (s : rst) (d : described) (f : nat) : Prop := {
    l_names : map vname (f_vars (r_h s f)) = d_names d;
    l_value : forall c, valid_comb (fsizes (r_h s f)) c -> fimg (r_h s f) c = d_value d c;
    l_plain : d_weight d = None -> weight_of s f = None;
    l_exponential : forall w, d_weight d = Some w -> weight_of s f <> None /\
      ((tun && d_tunable d)%bool = false \/ d_share d = None -> weight_of s f = Some w);
    l_const : (tun && d_tunable d)%bool = false -> In f (r_const s);
    l_tun : (tun && d_tunable d)%bool = true -> In f (r_tun s) /\
      match d_share d with
      | None => exists c, In (f :: c) (tunable_clusters s)
      | Some names => exists c f0, In c (tunable_clusters s) /\ In f c /\ In f0 c /\ f0 <> f /\
          forall n, In n names <-> In n (map vname (f_vars (r_h s f0)))
      end
  }.
  (** the model after the import: the factors described, that are on variables of the
      document, are there, once each, with those that were there *)
  Definition all_loaded {P} (tun : bool) (describes : P -> described -> Prop) (names : list string) (pots : list P) (s s' : rst) : Prop :=
    exists ds fs, Forall2 describes pots ds /\ Forall (fun d => incl (d_names d) names) ds /\
      Forall2 (loaded tun s') ds fs /\ Permutation.Permutation (g_all (r_g s')) (g_all (r_g s) ++ fs).
  (** some variable with that name has that evidence *)
  Definition evidence_loaded (name : string) (k : nat) (s' : rst) : Prop :=
    exists v, In v (g_vars (r_g s')) /\ vname v = name /\ sp_evidence (contents s') v = Some k.
End Described.
Arguments described N : clear implicits.
