(** Model of the export of a model to json and of its import.
    Sources: /repo/src/src/io/json/Exporter.cpp, Importer.cpp,
    /repo/src/header/EasyFactorGraph/io/json/Importer.h,
    /repo/src/src/io/Utils.cpp:48-76.
    The files are not modelled: [exportToFile] and [importFromFile] write and read
    the text of the json with [nlohmann::json], that is not in the repository. *)
From Coq Require Import Ascii String List Arith ZArith Bool.
From Verif Require Import Res Num Categoric Func Graph Belief Train IO TextSpec.
Import ListNotations.
Open Scope nat_scope.

(** {1 Values of json}

    [nlohmann::json]: [JOther] stands for the numbers and the booleans. An object
    is the list of its members. *)
Inductive json := JNull | JOther | JStr (s : string) | JArr (l : list json) | JObj (l : list (string * json)).

(** the value after some [emplace_back] on a null one: still null without any *)
Definition jarr (l : list json) : json := match l with [] => JNull | _ => JArr l end.
(** the values visited by a range-based for: a value that is not a container is
    visited once *)
Definition jiter (j : json) : list json :=
  match j with JNull => [] | JArr l => l | JObj l => map snd l | _ => [j] end.
Definition jmember (l : list (string * json)) (name : string) : option json :=
  option_map snd (find (fun p => String.eqb (fst p) name) l).
(** [operator[]] on a const value: throws for what is not an object, is undefined
    for a missing member *)
Definition jindex (j : json) (name : string) : res json :=
  match j with
  | JObj l => match jmember l name with Some x => Ok x | None => UB end
  | _ => Throw
  end.

(** [try_access] (Importer.cpp:25-28) *)
Definition try_access (j : json) (name : string) : option json :=
  match j with JObj l => jmember l name | _ => None end.
(** [access] (Importer.cpp:30-36) *)
Definition access (j : json) (name : string) : res json :=
  match try_access j name with Some x => Ok x | None => Throw end.

(** how [nlohmann::json::dump] writes a character of a string. The bytes from 128
    on are copied; a string that is not valid UTF-8, for which [dump] throws, is
    not modelled. *)
Definition hex (n : nat) : ascii := ascii_of_nat (if n <? 10 then 48 + n else 87 + n).
Definition dump_char (c : ascii) : string :=
  let n := nat_of_ascii c in
  let esc x := String "\"%char (String x EmptyString) in
  if n =? 8 then esc "b"%char else if n =? 9 then esc "t"%char else if n =? 10 then esc "n"%char
  else if n =? 12 then esc "f"%char else if n =? 13 then esc "r"%char
  else if n =? 34 then esc c else if n =? 92 then esc c
  else if n <? 32 then ("\u00" ++ String (hex (n / 16)) (String (hex (n mod 16)) EmptyString))%string
  else String c EmptyString.
Fixpoint dump_chars (s : string) : string :=
  match s with EmptyString => EmptyString | String c r => (dump_char c ++ dump_chars r)%string end.
(** [to_string] (Importer.cpp:38-44): what is written between the quotes *)
Definition to_string (j : json) : res string := match j with JStr s => Ok (dump_chars s) | _ => Throw end.

Section Json.
  Context {N : num}.
  Notation gst := (gst (N:=N)).
  Notation rst := (rst (N:=N)).
  (** [std::to_string] of a float (six decimals), [std::atof] converted to float *)
  Variable fprint : N -> string.
  Variable atof : string -> N.

  (** {1 Export} *)

  (** [printVariable] (Exporter.cpp:22-26). [std::to_string] of a [std::size_t]
      is its decimal notation [written]. *)
  Definition print_variable (v : var) : list (string * json) :=
    [("name"%string, JStr (vname v)); ("Size"%string, JStr (written (vsize v)))].
  (** [printGroup] (Exporter.cpp:28-33) *)
  Definition print_group (vs : list var) : json := jarr (map (fun v => JStr (vname v)) vs).
  (** [printPotential] (Exporter.cpp:35-50): the images before the
      transformation *)
  Definition print_image (p : list nat * N) : json :=
    JObj [("D"%string, JStr (fprint (snd p))); ("v"%string, jarr (map (fun k => JStr (written k)) (fst p)))].
  Definition print_potential (f : func N) : res (list (string * json)) :=
    let* es := f_each_nonnull false f in
    Ok [("Variables"%string, print_group (f_vars f)); ("Distr_val"%string, jarr (map print_image es))].
  (** [printExpPotential] (Exporter.cpp:52-57) *)
  Definition print_exp (f : func N) : res (list (string * json)) :=
    let* fields := print_potential f in
    let* w := exp_get_weight f in
    Ok (fields ++ [("weight"%string, JStr (fprint w))]).
  (** the const factors (Exporter.cpp:76-86): the [dynamic_cast] recognises the
      exponential ones *)
  Definition print_const (f : func N) : res json :=
    match f_exp f with
    | None => let* fields := print_potential f in Ok (JObj fields)
    | Some _ => let* fields := print_exp f in Ok (JObj (fields ++ [("tunability"%string, JStr "N"%string)]))
    end.
  (** [Visitor] (Exporter.cpp:89-106) *)
  Definition print_tunable (share : option (list var)) (f : func N) : res json :=
    let* fields := print_exp f in
    Ok (JObj (fields ++ [("tunability"%string, JStr "Y"%string)] ++
              match share with None => [] | Some vs => [("Share"%string, print_group vs)] end)).
  Definition print_cluster (h : nat -> func N) (c : list nat) : res (list json) :=
    match c with
    | [] => UB
    | f :: r =>
        let* j := print_tunable None (h f) in
        let* js := rmap (fun g => print_tunable (Some (f_vars (h f))) (h g)) r in
        Ok (j :: js)
    end.
  (** [Exporter::convert] (Exporter.cpp:60-111). [tun]: the model has tunable
      factors ([RandomField], [ConditionalRandomField]), or not ([Graph]) *)
  Definition export_json (e : env) (tun : bool) (s : rst) : res json :=
    let g := r_g s in
    let hs := map (fun v => JObj (print_variable v)) (hidden_variables e g) in
    let* os := rmap (fun a => let* v := node_var g a in
                              match g_ev g a with
                              | None => UB
                              | Some k => Ok (JObj (print_variable v ++ [("evidence"%string, JStr (written k))]))
                              end) (e_ord e (gsize g) (keys (gsize g) (g_ev g))) in
    let* cs := rmap (fun f => print_const (r_h s f)) (e_ord e 0 (r_const s)) in
    let* ts := if tun then rmap (print_cluster (r_h s)) (tunable_clusters s) else Ok [] in
    Ok (JObj [("Variables"%string, jarr (hs ++ os)); ("Potentials"%string, jarr (cs ++ concat ts))]).

  (** {1 Import} *)

  (** [atoi] and conversion to [std::size_t] *)
  Definition read_size (s : string) : res nat := let* z := atoi s in Ok (to_size z).

  (** the loop on the variables (Importer.cpp:138-152). [next] is the address of
      the next variable; the map of the evidences keeps the first value of a
      name. *)
  Record ivars := mkIV { iv_next : nat; iv_vars : list var; iv_ev : list (string * nat) }.
  Definition import_variable (st : ivars) (j : json) : res ivars :=
    let* jn := access j "name" in
    let* name := to_string jn in
    let* js := access j "Size" in
    let* size := to_string js in
    let* n := read_size size in
    let* v := make_variable (iv_next st) n name in
    if vset_mem (iv_vars st) v then Throw
    else
      let* ev := match try_access j "evidence" with
                 | None => Ok (iv_ev st)
                 | Some jo =>
                     let* o := to_string jo in
                     let* k := read_size o in
                     Ok (if existsb (fun p => String.eqb (fst p) name) (iv_ev st) then iv_ev st else iv_ev st ++ [(name, k)])
                 end in
      Ok (mkIV (S (iv_next st)) (iv_vars st ++ [v]) ev).

  (** [findVariable] (Importer.cpp:46-56): the set is visited in the order of
      [e] *)
  Definition find_name (e : env) (vars : list var) (name : string) : res var :=
    match find (fun v => String.eqb (vname v) name) (permute (e_ord e 0) vars) with
    | Some v => Ok v
    | None => Throw
    end.
  (** [importGroup] (Importer.cpp:58-68) *)
  Definition import_group (e : env) (vars : list var) (j : json) : res group :=
    let* vs := rmap (fun x => let* name := to_string x in find_name e vars name) (jiter j) in
    if negb (length vs =? 1) && negb (length vs =? 2) then Throw else group_ctor vs.
  (** [importFactor] (Importer.cpp:70-104) *)
  Definition import_image (f : func N) (j : json) : res (func N) :=
    let* jv := jindex j "v" in
    let* comb := rmap (fun x => let* s := to_string x in read_size s) (jiter jv) in
    let* jd := access j "D" in
    let* d := to_string jd in
    m_set f comb (atof d).
  Definition import_factor (e : env) (vars : list var) (j : json) : res (func N) :=
    let* jg := access j "Variables" in
    let* g := import_group e vars jg in
    match try_access j "Correlation" with
    | Some jc =>
        let* c := to_string jc in
        let* g := group_ctor (g_soup g) in
        if String.eqb c "T" then factor_correlated g
        else if String.eqb c "F" then factor_anticorrelated g
        else Throw
    | None =>
        let* g := group_ctor (g_soup g) in
        let* jd := access j "Distr_val" in
        rfold import_image (jiter jd) (func_ctor g)
    end.
  (** what [importPotential] (Importer.cpp:106-130) gives to the [ImportHelper]:
      a const factor, a tunable one, or a tunable one that shares its weight *)
  Inductive iway := IConst | ITun | IShare (group : list var).
  Definition import_potential (e : env) (vars : list var) (j : json) : res (func N * iway) :=
    let* shape := import_factor e vars j in
    match try_access j "weight" with
    | None => Ok (shape, IConst)
    | Some jw =>
        let* w := to_string jw in
        let* f := exp_ctor shape (atof w) in
        let* tunable := match try_access j "tunability" with
                        | None => Ok false
                        | Some jt => let* t := to_string jt in Ok (String.eqb t "Y")
                        end in
        if tunable then
          match try_access j "Share" with
          | None => Ok (f, ITun)
          | Some js => let* g := import_group e vars js in Ok (f, IShare (g_set g))
          end
        else Ok (f, IConst)
    end.
  (** [ImportHelper::importConst], [importTunable] (Utils.cpp:48-64), with the
      loop on the potentials (Importer.cpp:155-157). [tun]: the model has a
      [FactorsTunableInserter]. The address of the factor is the next one; the
      factor given to the constructor of an exponential one is not counted. *)
  Definition import_one (e : env) (tun : bool) (vars : list var) (j : json) (cumulated : list (nat * list var)) (s : rst)
    : out rst (list (nat * list var)) :=
    do (p, s) <- lift (import_potential e vars j) s ;;
    let (k, s) := alloc s (fst p) in
    match snd p with
    | IConst => do (_, s) <- add_const (Some k) s ;; Ret cumulated s
    | ITun => do (_, s) <- (if tun then add_tunable (Some k) None s else add_const (Some k) s) ;; Ret cumulated s
    | IShare g => if tun then Ret (cumulated ++ [(k, g)]) s else do (_, s) <- add_const (Some k) s ;; Ret cumulated s
    end.
  Fixpoint import_all (e : env) (tun : bool) (vars : list var) (js : list json) (cumulated : list (nat * list var)) (s : rst)
    : out rst (list (nat * list var)) :=
    match js with
    | [] => Ret cumulated s
    | j :: r => do (c, s) <- import_one e tun vars j cumulated s ;; import_all e tun vars r c s
    end.
  (** [Importer::convert] (Importer.cpp:133-160), with [importCumulatedTunable]
      (Utils.cpp:66-76): nothing is cumulated without the inserter *)
  Definition convert_json (e : env) (tun : bool) (next : nat) (j : json) (s : rst) : out rst (list (string * nat)) :=
    do (iv, s) <- lift (let* jv := jindex j "Variables" in rfold import_variable (jiter jv) (mkIV next [] [])) s ;;
    do (jp, s) <- lift (jindex j "Potentials") s ;;
    do (cumulated, s) <- import_all e tun (iv_vars iv) (jiter jp) [] s ;;
    do (_, s) <- ofold (fun p s => add_tunable (Some (fst p)) (Some (snd p)) s) cumulated s ;;
    Ret (iv_ev iv) s.
  (** [importFromJson] (Importer.h:42-46) and [set_evidences] (Importer.h:55-65):
      the map of the evidences is visited in the order of [e] *)
  Definition import_json (e : env) (tun : bool) (next : nat) (j : json) (s : rst) : out rst unit :=
    do (ev, s) <- convert_json e tun next j s ;;
    ofold (fun p s => on_g (fun g => set_evidence_name (r_h s) e g (fst p) (snd p)) s) (permute (e_ord e 1) ev) s.
End Json.
