(** Model of the export of a model to xml and of its import.
    Sources: /repo/src/src/io/xml/Exporter.cpp, Importer.cpp,
    /repo/src/header/EasyFactorGraph/io/xml/Importer.h, /repo/src/src/io/Utils.cpp:48-76.
    The library XML-Parser, that prints the tags and parses the files, is not in the
    repository: see [reads]. *)
From Coq Require Import Ascii String List Arith ZArith Bool.
From Verif Require Import Res Num Categoric Func Graph Belief Train IO TextSpec Json.
Import ListNotations.
Open Scope nat_scope.

(** {1 Tags}

    [xmlPrs::Tag]: the attributes and the nested tags, [std::unordered_multimap]s
    (Importer.cpp:36-43). The lists have the order of the insertions. *)
Inductive tag := Tag (attributes : list (string * string)) (nested : list (string * tag)).
Definition attributes (t : tag) := match t with Tag a _ => a end.
Definition nested (t : tag) := match t with Tag _ n => n end.
Definition with_key {A} (l : list (string * A)) (key : string) : list A :=
  map snd (filter (fun p => String.eqb (fst p) key) l).

Section Tags.
  (** the order in which a multimap visits the elements with the same key: [place]
      gives it from the order of their insertion, whatever the elements. The standard
      does not tell where an element is inserted among those with the same key. *)
  Variable place : list nat -> list nat.
  (** [for_each_key] (Importer.cpp:36-43), [equal_range] *)
  Definition range {A} (l : list (string * A)) (key : string) : list A := permute place (with_key l key).
  (** [find] *)
  Definition mfind {A} (l : list (string * A)) (key : string) : option A := hd_error (range l key).
  (** [try_access_attribute], [access_attribute] (Importer.cpp:18-34) *)
  Definition try_attr (t : tag) (name : string) : option string := mfind (attributes t) name.
  Definition attr (t : tag) (name : string) : res string := match try_attr t name with Some x => Ok x | None => Throw end.

  (** The tag parsed from the text printed for another one: the tags and the attributes
      are printed in the order of the multimaps and inserted in the order of the text.
      That the texts of the names and of the values are found again is an assumption on
      the library. *)
  Inductive reads : tag -> tag -> Prop :=
  | Reads t t' :
      (forall key, with_key (attributes t') key = range (attributes t) key) ->
      (forall key, Forall2 reads (range (nested t) key) (with_key (nested t') key)) ->
      reads t t'.
End Tags.

Section Xml.
  Context {N : num}.
  Notation gst := (gst (N:=N)).
  Notation rst := (rst (N:=N)).
  (** [std::to_string] of a float, [std::atof] converted to float *)
  Variable fprint : N -> string.
  Variable atof : string -> N.

  (** {1 Export} *)

  (** [printVariable] (Exporter.cpp:19-26), with the evidence (Exporter.cpp:74-78) *)
  Definition xml_variable (v : var) (observed : list (string * string)) : string * tag :=
    ("Variable"%string, Tag ([("name"%string, vname v); ("Size"%string, written (vsize v))] ++ observed) []).
  (** [printGroup] (Exporter.cpp:28-33) *)
  Definition xml_group (vs : list var) : list (string * string) := map (fun v => ("var"%string, vname v)) vs.
  (** [printPotential] (Exporter.cpp:35-49): the attributes and the nested tags *)
  Definition xml_image (p : list nat * N) : string * tag :=
    ("Distr_val"%string, Tag (("D"%string, fprint (snd p)) :: map (fun k => ("v"%string, written k)) (fst p)) []).
  Definition xml_potential (f : func N) : res (list (string * string) * list (string * tag)) :=
    let* es := f_each_nonnull false f in
    Ok (xml_group (f_vars f), map xml_image es).
  (** [printExpPotential] (Exporter.cpp:51-56) *)
  Definition xml_exp (f : func N) : res (list (string * string) * list (string * tag)) :=
    let* p := xml_potential f in
    let* w := exp_get_weight f in
    Ok (fst p ++ [("weight"%string, fprint w)], snd p).
  (** the const factors (Exporter.cpp:79-90) *)
  Definition xml_const (f : func N) : res (string * tag) :=
    match f_exp f with
    | None => let* p := xml_potential f in Ok ("Potential"%string, Tag (fst p) (snd p))
    | Some _ => let* p := xml_exp f in Ok ("Potential"%string, Tag (fst p ++ [("tunability"%string, "N"%string)]) (snd p))
    end.
  (** [Visitor] (Exporter.cpp:93-113). [operator[]] of a tag is assumed to add the
      nested tag when there is none. *)
  Definition xml_tunable (share : option (list var)) (f : func N) : res (string * tag) :=
    let* p := xml_exp f in
    Ok ("Potential"%string,
        Tag (fst p ++ [("tunability"%string, "Y"%string)])
            (snd p ++ match share with None => [] | Some vs => [("Share"%string, Tag (xml_group vs) [])] end)).
  Definition xml_cluster (h : nat -> func N) (c : list nat) : res (list (string * tag)) :=
    match c with
    | [] => UB
    | f :: r =>
        let* t := xml_tunable None (h f) in
        let* ts := rmap (fun g => xml_tunable (Some (f_vars (h f))) (h g)) r in
        Ok (t :: ts)
    end.
  (** [Exporter::convert] (Exporter.cpp:66-119). [tun] as in [export_json]; the name of
      the root is not modelled, the importer does not read it. *)
  Definition export_xml (e : env) (tun : bool) (s : rst) : res tag :=
    let g := r_g s in
    let hs := map (fun v => xml_variable v []) (hidden_variables e g) in
    let* os := rmap (fun a => let* v := node_var g a in
                              match g_ev g a with
                              | None => UB
                              | Some k => Ok (xml_variable v [("evidence"%string, written k)])
                              end) (e_ord e (gsize g) (keys (gsize g) (g_ev g))) in
    let* cs := rmap (fun f => xml_const (r_h s f)) (e_ord e 0 (r_const s)) in
    let* ts := if tun then rmap (xml_cluster (r_h s)) (tunable_clusters s) else Ok [] in
    Ok (Tag [] (hs ++ os ++ cs ++ concat ts)).

  (** {1 Import} *)
  Variable place : list nat -> list nat.
  (** the text of a file, [None] if it cannot be opened, and the folder of the model *)
  Variable files : string -> option string.
  Variable prefix : string.
  Notation range := (range place).
  Notation try_attr := (try_attr place).
  Notation attr := (attr place).

  (** the loop on the variables (Importer.cpp:152-170); [make_variable] throws for a
      size 0 or an empty name *)
  Definition xml_import_variable (st : ivars) (t : tag) : res ivars :=
    let* name := attr t "name" in
    let* size := attr t "Size" in
    let* n := read_size size in
    let* v := make_variable (iv_next st) n name in
    if vset_mem (iv_vars st) v then Throw
    else
      let* ev := match try_attr t "evidence" with
                 | None => Ok (iv_ev st)
                 | Some o =>
                     let* k := read_size o in
                     Ok (if existsb (fun p => String.eqb (fst p) name) (iv_ev st) then iv_ev st else iv_ev st ++ [(name, k)])
                 end in
      Ok (mkIV (S (iv_next st)) (iv_vars st ++ [v]) ev).
  (** [importGroup] (Importer.cpp:57-68); [findVariable] (Importer.cpp:45-55) is the
      one of the json importer *)
  Definition xml_import_group (e : env) (vars : list var) (t : tag) : res group :=
    let* vs := rmap (find_name e vars) (range (attributes t) "var") in
    if negb (length vs =? 1) && negb (length vs =? 2) then Throw else group_ctor vs.
  (** [importFactor] (Importer.cpp:70-113). [useInStrem] throws if the file cannot be
      opened (Utils.h). *)
  Definition xml_import_image (f : func N) (t : tag) : res (func N) :=
    let* comb := rmap read_size (range (attributes t) "v") in
    let* d := attr t "D" in
    m_set f comb (atof d).
  Definition xml_import_factor (e : env) (vars : list var) (t : tag) : res (func N) :=
    let* g := xml_import_group e vars t in
    let* g := group_ctor (g_soup g) in
    match try_attr t "Correlation" with
    | Some c =>
        if String.eqb c "T" then factor_correlated g
        else if String.eqb c "F" then factor_anticorrelated g
        else Throw
    | None =>
        match try_attr t "Source" with
        | Some source =>
            match files (prefix ++ "/" ++ source)%string with
            | None => Throw
            | Some text =>
                match import_values atof (func_ctor g) text with
                | Ret _ f => Ok f
                | Thr _ => Throw
                | Undef => UB
                | NotNum => Nan
                | NoStop => Loop
                end
            end
        | None => rfold xml_import_image (range (nested t) "Distr_val") (func_ctor g)
        end
    end.
  (** what [importPotential] (Importer.cpp:115-140) gives to the [ImportHelper] *)
  Definition xml_import_potential (e : env) (vars : list var) (t : tag) : res (func N * iway) :=
    let* shape := xml_import_factor e vars t in
    match try_attr t "weight" with
    | None => Ok (shape, IConst)
    | Some w =>
        let* f := exp_ctor shape (atof w) in
        let tunable := match try_attr t "tunability" with None => false | Some x => String.eqb x "Y" end in
        if tunable then
          match mfind place (nested t) "Share" with
          | None => Ok (f, ITun)
          | Some st => let* g := xml_import_group e vars st in Ok (f, IShare (g_set g))
          end
        else Ok (f, IConst)
    end.
  (** the loop on the potentials (Importer.cpp:171-177), with [ImportHelper] as in
      [import_one] *)
  Definition xml_import_one (e : env) (tun : bool) (vars : list var) (t : tag) (cumulated : list (nat * list var)) (s : rst)
    : out rst (list (nat * list var)) :=
    do (p, s) <- lift (xml_import_potential e vars t) s ;;
    let (k, s) := alloc s (fst p) in
    match snd p with
    | IConst => do (_, s) <- add_const (Some k) s ;; Ret cumulated s
    | ITun => do (_, s) <- (if tun then add_tunable (Some k) None s else add_const (Some k) s) ;; Ret cumulated s
    | IShare g => if tun then Ret (cumulated ++ [(k, g)]) s else do (_, s) <- add_const (Some k) s ;; Ret cumulated s
    end.
  Fixpoint xml_import_all (e : env) (tun : bool) (vars : list var) (ts : list tag) (cumulated : list (nat * list var)) (s : rst)
    : out rst (list (nat * list var)) :=
    match ts with
    | [] => Ret cumulated s
    | t :: r => do (c, s) <- xml_import_one e tun vars t cumulated s ;; xml_import_all e tun vars r c s
    end.
  (** [Importer::convert] (Importer.cpp:143-180), after the parsing *)
  Definition convert_xml (e : env) (tun : bool) (next : nat) (t : tag) (s : rst) : out rst (list (string * nat)) :=
    do (iv, s) <- lift (rfold xml_import_variable (range (nested t) "Variable") (mkIV next [] [])) s ;;
    do (cumulated, s) <- xml_import_all e tun (iv_vars iv) (range (nested t) "Potential") [] s ;;
    do (_, s) <- ofold (fun p s => add_tunable (Some (fst p)) (Some (snd p)) s) cumulated s ;;
    Ret (iv_ev iv) s.
  (** [importFromFile] (Importer.h:27-37) *)
  Definition import_xml (e : env) (tun : bool) (next : nat) (t : tag) (s : rst) : out rst unit :=
    do (ev, s) <- convert_xml e tun next t s ;;
    ofold (fun p s => on_g (fun g => set_evidence_name (r_h s) e g (fst p) (snd p)) s) (permute (e_ord e 1) ev) s.
End Xml.
