(** When a call on a random field is used properly: conditions that exclude
    undefined behaviour (property C54, for random fields) *)
From Coq Require Import String List Arith Bool.
From Verif Require Import Res Num Categoric Combs Func Graph GraphSpec Hist BeliefSpec JointSpec SafeSpec Train TrainHist Coherent.
Import ListNotations.
Open Scope nat_scope.

Section FieldSafeSpec.
  Context {N : num}.
  Notation rst := (rst (N:=N)).
  Notation rop := (rop (N:=N)).
  Implicit Types s : rst.

  (** the model without its evidences: all its variables are hidden *)
  Definition without_evidences s : spec := mkSpec (g_vars (r_g s)) (fun _ => None) (g_all (r_g s)).
  (** the samples give a value to each variable, in its range *)
  Definition in_range s (it : titer) : Prop :=
    exists samples, iter_samples it = Ok samples /\ forall c, In c samples -> valid_comb (map vsize (g_vars (r_g s))) c.

  (** - calls about the evidences and queries: as for a graph, see [safe_use];
      - gradient: at least one thread, samples in the range of the variables, the
        factors join variables of the same size;
      - absorption of clusters: no cluster is empty (those of a model never are);
      - weights: see [careful] *)
  Definition rsafe s (op : rop) : Prop :=
    careful True s op /\
    match op with
    | RGraph op => safe_use (r_h s) (spec_of (r_g s)) op
    | RGradient it n => 1 <= n /\ balanced (r_h s) (without_evidences s) /\ in_range s it
    | RAbsorbClusters _ cs => forall c, In c cs -> c <> []
    | _ => True
    end.
End FieldSafeSpec.
