(** When a call on a conditional random field is used properly: conditions that
    exclude undefined behaviour (property C54, for conditional random fields) *)
From Coq Require Import String List Arith Bool.
From Verif Require Import Res Num Categoric Combs Func FactorApi Graph Belief Gibbs GraphSpec Hist BeliefSpec JointSpec SafeSpec Train TrainHist Coherent CRF CRFHist FieldSafeSpec.
Import ListNotations.
Open Scope nat_scope.

Section CondSafeSpec.
  Context {N : num}.
  Notation rst := (rst (N:=N)).
  Notation cop := (cop (N:=N)).
  Implicit Types s : rst.

  (** the observed variables *)
  Definition observed s : list var :=
    flat_map (fun p => match g_ev (r_g s) (fst p) with Some _ => [snd p] | None => [] end) (combine (seq 0 (length (g_vars (r_g s)))) (g_vars (r_g s))).
  (** how many combinations of values the observed variables have *)
  Definition combinations s : nat := prodn (map vsize (observed s)).
  (** every factor of one variable with a tunable weight is on a variable that some
      factor joins to an observed one *)
  Definition attached s : Prop := forall c f v, In c (tunable_clusters s) -> In f c -> f_vars (r_h s f) = [v] ->
    exists f' w, In f' (g_all (r_g s)) /\ (f_vars (r_h s f') = [v; w] \/ f_vars (r_h s f') = [w; v]) /\ In w (observed s).

  (** [stale] tells if the weights were set since the evidences were last set. [pos]
      are the positions of the observed variables in the source of the model.
      - queries: as for a graph, and not after new weights;
      - weights: [attached];
      - gradient: at least one thread, samples in the range of the variables and as
        long as the positions need, hidden variables joined by a factor of the same size;
      - samples: at least one thread, not after new weights;
      - train sets: at least one thread, and the percentage of the combinations is at least one combination *)
  Definition csafe (stale : bool) s (pos : list nat) (op : cop) : Prop :=
    match op with
    | CEv _ => True
    | CQuery op => stale = false /\ safe_use (r_h s) (spec_of (r_g s)) op
    | CWeights _ | COnes => attached s
    | CGradient _ it n => 1 <= n /\ balanced (r_h s) (spec_of (r_g s)) /\ in_range s it /\ forall p, In p pos -> p < length (g_vars (r_g s))
    | CSamples _ _ _ n => stale = false /\ 1 <= n
    | CTrain _ floorf _ _ _ p n => 1 <= n /\ (neqb n1 p = true \/ floorf (nofnat (combinations s) * p)%num <> 0)
    end.
  (** is a model stale after a call that returns *)
  Definition stale_after (stale : bool) (op : cop) : bool :=
    match op with
    | CWeights _ | COnes => true
    | CEv _ => false
    | CGradient _ it _ => stale && (iter_size it =? 0)
    | _ => stale
    end.
  (** after a call that throws *)
  Definition stale_thrown (stale : bool) (op : cop) : bool :=
    match op with CWeights _ | COnes => true | _ => stale end.

  (** the conditional random fields made from a random field used properly, their
      copies, and what proper calls give *)
  Inductive proper : bool -> crf (N:=N) -> Prop :=
  | P_field h top src e copy c s : (forall f, built (h f)) -> rreach h top rsafe src -> env_ok e -> crf_ctor e src copy = Ret c s -> proper false c
  | P_copy b c0 e c s : proper b c0 -> env_ok e -> crf_ctor e (c_r c0) false = Ret c s -> proper false c
  | P_ret b c e op a s : proper b c -> cok op -> csafe b (c_r c) (c_pos c) op -> env_ok e ->
      ccall e (c_pos c) op (c_r c) = Ret a s -> proper (stale_after b op) (mkC s (c_pos c))
  | P_thr b c e op s : proper b c -> cok op -> csafe b (c_r c) (c_pos c) op -> env_ok e ->
      ccall e (c_pos c) op (c_r c) = Thr s -> proper (stale_thrown b op) (mkC s (c_pos c)).
End CondSafeSpec.
