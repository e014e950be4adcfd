(** Model of the pool of threads: an interleaving semantics.
    Source: /repo/src/src/structure/bases/PoolAware.cpp,
    /repo/src/header/EasyFactorGraph/structure/bases/PoolAware.h.

    Simplifications: the accesses to the atomics are sequentially consistent
    (the default order of [std::atomic], the one used by the code). The calls to
    [parallelFor] come from one thread, hence the mutex (PoolAware.cpp:53) is
    never contended. A task is a list of atomic actions on a shared memory and
    does not throw. *)
From Coq Require Import List Arith Bool Lia.
Import ListNotations.
Open Scope nat_scope.

Section Pool.
  (** the memory shared by the tasks *)
  Variable M : Type.
  (** [Task] (PoolAware.h:19): the sequence of the actions, given the id of the
      thread; [Tasks] (PoolAware.h:21) *)
  Definition task := list (nat -> M -> M).
  Definition tasks := list task.

  (** [ctxt.pool_size] (PoolAware.h:34) *)
  Variable n : nat.
  (** the lists of tasks passed to the successive calls of [parallelFor] *)
  Variable jobs : list tasks.
  Definition job (j : nat) : tasks := nth j jobs [].

  (** [to_process] (PoolAware.h:46): the pointed tasks are identified by the
      position of the job. The member is declared after the thread [loop]
      (44) and initialised after it. *)
  Inductive slot := Uninit | Null | Ptr (j : nat).

  (** the loop of a worker (PoolAware.cpp:22-30): [WNew]: the thread does not
      exist; [WLife]: about to read [life]; [WLoad]: about to read
      [to_process]; [WRun j k i]: about to execute the action [i] of the task [k];
      [WStore]: about to write [nullptr]; [WExit]: the thread is finished *)
  Inductive wpc := WNew | WLife | WLoad | WRun (j k i : nat) | WStore | WExit.
  Record worker := mkW { w_pc : wpc; w_slot : slot }.

  (** the thread that owns the pool. [MNew k], [MInit k]: creation of the
      worker [k] (PoolAware.cpp:37-39): start of its thread, then initialisation
      of its [to_process]. [MPub j k], [MRun j k i], [MWait j k]: the call of
      [parallelFor] with the job [j] (54-56, 57, 58-67). [MKill], [MJoin k]: the
      destructor (43, 44-48). *)
  Inductive mpc :=
  | MNew (k : nat) | MInit (k : nat)
  | MPub (j k : nat) | MRun (j k i : nat) | MWait (j k : nat)
  | MKill | MJoin (k : nat) | MDone.

  (** an executed action: thread, task, position of the action in the task *)
  Definition entry := (nat * (nat * nat))%type.

  (** [c_log]: the actions executed for the current job; [c_past]: those of the
      previous jobs (ghost state); [c_ub]: an uninitialised [to_process] has been
      read *)
  Record config := mkC {
    c_m : mpc;
    c_w : nat -> worker;
    c_life : bool;
    c_mem : M;
    c_log : list entry;
    c_past : list (list entry);
    c_ub : bool
  }.

  Definition set_m c x := mkC x (c_w c) (c_life c) (c_mem c) (c_log c) (c_past c) (c_ub c).
  Definition set_w c k x :=
    mkC (c_m c) (fun i => if i =? k then x else c_w c i) (c_life c) (c_mem c) (c_log c) (c_past c) (c_ub c).
  Definition set_life c b := mkC (c_m c) (c_w c) b (c_mem c) (c_log c) (c_past c) (c_ub c).
  Definition set_ub c := mkC (c_m c) (c_w c) (c_life c) (c_mem c) (c_log c) (c_past c) true.
  Definition exec c (e : entry) (m : M) := mkC (c_m c) (c_w c) (c_life c) m (c_log c ++ [e]) (c_past c) (c_ub c).
  Definition close c := mkC (c_m c) (c_w c) (c_life c) (c_mem c) [] (c_past c ++ [c_log c]) (c_ub c).

  (** one step of the loop [process_tasks_in_parallel] (PoolAware.cpp:13-19) of
      the thread [t]: an action, or the passage to the next task of the thread,
      or [None] at the end *)
  Inductive pstep := PAct (a : nat -> M -> M) | PNext | PEnd.
  Definition proc (j k i : nat) : pstep :=
    match nth_error (job j) k with
    | None => PEnd
    | Some t => match nth_error t i with Some a => PAct a | None => PNext end
    end.

  (** start of the call [j], or of the destructor when there are no more calls *)
  Definition enter (j : nat) : mpc := if j <? length jobs then MPub j 1 else MKill.

  Definition main_step c : config :=
    match c_m c with
    | MNew k => if k <? n then set_m (set_w c k (mkW WLife (w_slot (c_w c k)))) (MInit k) else set_m c (enter 0)
    | MInit k => set_m (set_w c k (mkW (w_pc (c_w c k)) Null)) (MNew (S k))
    | MPub j k => if k <? n then set_m (set_w c k (mkW (w_pc (c_w c k)) (Ptr j))) (MPub j (S k)) else set_m c (MRun j 0 0)
    | MRun j k i =>
        match proc j k i with
        | PAct a => set_m (exec c (0, (k, i)) (a 0 (c_mem c))) (MRun j k (S i))
        | PNext => set_m c (MRun j (k + n) 0)
        | PEnd => set_m c (MWait j 1)
        end
    | MWait j k =>
        if k <? n then
          match w_slot (c_w c k) with
          | Null => set_m c (MWait j (S k))
          | _ => set_m c (MWait j 1)
          end
        else set_m (close c) (enter (S j))
    | MKill => set_m (set_life c false) (MJoin 1)
    | MJoin k =>
        if k <? n then match w_pc (c_w c k) with WExit => set_m c (MJoin (S k)) | _ => c end
        else set_m c MDone
    | MDone => c
    end.

  Definition worker_step (t : nat) c : config :=
    let w := c_w c t in
    match w_pc w with
    | WNew | WExit => c
    | WLife => set_w c t (mkW (if c_life c then WLoad else WExit) (w_slot w))
    | WLoad =>
        match w_slot w with
        | Uninit => set_ub c
        | Null => set_w c t (mkW WLife Null)
        | Ptr j => set_w c t (mkW (WRun j t 0) (Ptr j))
        end
    | WRun j k i =>
        match proc j k i with
        | PAct a => set_w (exec c (t, (k, i)) (a t (c_mem c))) t (mkW (WRun j k (S i)) (w_slot w))
        | PNext => set_w c t (mkW (WRun j (k + n) 0) (w_slot w))
        | PEnd => set_w c t (mkW WStore (w_slot w))
        end
    | WStore => set_w c t (mkW WLife Null)
    end.

  (** a step of the thread [t]; 0 is the owner of the pool *)
  Definition step (t : nat) c : config :=
    if t =? 0 then main_step c else if t <? n then worker_step t c else c.

  (** the constructor starts (PoolAware.cpp:32-36; a size 0 is rejected) *)
  Definition start (m : M) : config := mkC (MNew 1) (fun _ => mkW WNew Uninit) true m [] [] false.

  (** the configuration after the threads of a schedule have done a step each *)
  Definition run (sched : list nat) (c : config) : config := fold_left (fun c t => step t c) sched c.
End Pool.
