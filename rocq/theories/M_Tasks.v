(** Model of TaskEngine.cpp and of the tasks of MsmStrategy.cpp: an explicit stack of tasks and
    a heap of independence-split objects, as opposed to the recursive evaluation of M_Msm. *)
From Coq Require Import List Arith Bool.
Import ListNotations.
From Verif Require Import M_Term M_Ideal M_Slice M_Partition M_Msm.

(** ** TaskEngine.cpp *)

(** What can be observed of the engine: tasks being added and run.  Tasks are numbered by the value of
    _totalTasksEver at the moment they are added. *)
Inductive event := Added (id : nat) | Ran (id : nat).

Section Engine.
Variables T St : Type.
(** Task::run: new state of the world, and the tasks passed to addTask, in order; [None] is a crash. *)
Variable run : T -> St -> option (St * list T).

(** TaskEngine.cpp:34-47 addTask (push_back), for each task of the list in turn.  The head of
    the list is the back of the vector _tasks. *)
Fixpoint add_tasks (stack : list (nat * T)) (next : nat) (ts : list T) : list (nat * T) :=
  match ts with
  | [] => stack
  | t :: ts' => add_tasks ((next, t) :: stack) (S next) ts'
  end.

(** TaskEngine.cpp:49-63 runNextTask and runTasks.  [None]: a task crashed, or the fuel (number
    of tasks run) was not enough. *)
Fixpoint engine (fuel : nat) (st : St) (stack : list (nat * T)) (next : nat) (log : list event)
  : option (St * nat * list event) :=
  match stack with
  | [] => Some (st, next, log)
  | (id, t) :: stack' =>
      match fuel with
      | 0 => None
      | S fuel' =>
          match run t st with
          | None => None
          | Some (st', ts) =>
              engine fuel' st' (add_tasks stack' next ts) (next + length ts)
                (log ++ Ran id :: map Added (seq next (length ts)))
          end
      end
  end.

(** A fresh engine to which the tasks [ts] are added and that is then run. *)
Definition run_engine (fuel : nat) (st : St) (ts : list T) : option (St * nat * list event) :=
  engine fuel st (add_tasks [] 0 ts) (length ts) (map Added (seq 0 (length ts))).
End Engine.
Arguments add_tasks {T}.
Arguments engine {T St}.
Arguments run_engine {T St}.

(** ** MsmStrategy.cpp *)

(** The TermConsumer of a slice: the consumer given by the user, the split object [id]
    itself (left slice), or its RightConsumer (right slice). *)
Inductive consumer := CRoot | CLeft (id : nat) | CRight (id : nat).

(** MsmStrategy.cpp:170-256 MsmIndependenceSplit: data members. *)
Record splitobj := mkSplit {
  so_n : nat;               (* number of variables of _tmpTerm *)
  so_left : list nat;       (* _leftProjection *)
  so_right : list nat;      (* _rightProjection *)
  so_tmp : term;            (* _tmpTerm *)
  so_decom : list term;     (* _rightConsumer._decom *)
  so_parent : consumer      (* _consumer *)
}.

(** The heap: [None] marks a deleted object. *)
Definition heap := list (option splitobj).
Definition h_get (h : heap) (id : nat) : option splitobj :=
  match nth_error h id with Some (Some o) => Some o | _ => None end.
Fixpoint h_set (h : heap) (id : nat) (o : option splitobj) : heap :=
  match h, id with
  | [], _ => []
  | _ :: h', 0 => o :: h'
  | x :: h', S id' => x :: h_set h' id' o
  end.
Definition so_setTmp (o : splitobj) (t : term) : splitobj :=
  mkSplit (so_n o) (so_left o) (so_right o) t (so_decom o) (so_parent o).
Definition so_addDecom (o : splitobj) (t : term) : splitobj :=
  mkSplit (so_n o) (so_left o) (so_right o) (so_tmp o) (so_decom o ++ [t]) (so_parent o).

(** MsmStrategy.cpp:232-240 the loop in consume: [emit] is _consumer->consume.  The range of the
    loop is read once, before the loop, as in the code. *)
Fixpoint right_loop (emit : heap -> list term -> term -> option (heap * list term))
    (id : nat) (ys : list term) (h : heap) (out : list term) : option (heap * list term) :=
  match ys with
  | [] => Some (h, out)
  | y :: ys' =>
      match h_get h id with
      | None => None
      | Some o =>
          let tmp := proj_inverse (so_n o) (so_right o) (so_tmp o) y in
          match emit (h_set h id (Some (so_setTmp o tmp))) out tmp with
          | None => None
          | Some (h', out') => right_loop emit id ys' h' out'
          end
      end
  end.

(** MsmStrategy.cpp:232-240 (split) and 249-251 (RightConsumer) consume.
    [None]: use of a deleted object, or fuel too small for the chain of consumers. *)
Fixpoint consume (fuel : nat) (c : consumer) (h : heap) (out : list term) (t : term)
  : option (heap * list term) :=
  match fuel with
  | 0 => None
  | S fuel' =>
      match c with
      | CRoot => Some (h, out ++ [t])
      | CRight id =>
          match h_get h id with
          | None => None
          | Some o => Some (h_set h id (Some (so_addDecom o t)), out)
          end
      | CLeft id =>
          match h_get h id with
          | None => None
          | Some o =>
              right_loop (consume fuel' (so_parent o)) id (so_decom o)
                (h_set h id (Some (so_setTmp o (proj_inverse (so_n o) (so_left o) (so_tmp o) t)))) out
          end
      end
  end.
Fixpoint consume_all (c : consumer) (h : heap) (out : list term) (ts : list term)
  : option (heap * list term) :=
  match ts with
  | [] => Some (h, out)
  | t :: ts' =>
      match consume (S (S (length h))) c h out t with
      | None => None
      | Some (h', out') => consume_all c h' out' ts'
      end
  end.

(** Tasks: a slice with its consumer, or a split object (whose run() deletes it). *)
Inductive task := TSlice (s : slice) (c : consumer) | TDispose (id : nat).

(** The world a task acts on: split objects, number of calls to rand(), terms received by the
    user's consumer. *)
Definition world := (heap * nat * list term)%type.

(** MsmStrategy.cpp:67-85 processSlice, 103-168 labelSplit, 258-283 independenceSplit, and
    SliceStrategyCommon.cpp:77-111 pivotSplit, 212-218 MsmIndependenceSplit::run. *)
Definition task_run (c : config) (rnd : nat -> nat) (t : task) (w : world) : option (world * list task) :=
  let '(h, k, out) := w in
  match t with
  | TDispose id =>
      match h_get h id with
      | None => None
      | Some _ => Some ((h_set h id None, k, out), [])
      end
  | TSlice s con =>
      match msm_baseCase s (c_simp c) with
      | (_, BaseUB) => None
      | (_, Base ts) =>
          match consume_all con h out ts with
          | None => None
          | Some (h', out') => Some ((h', k, out'), [])
          end
      | (s1, NotBase) =>
          match (if c_indep c then indep_analyze s1 else Some None) with
          | None => None
          | Some (Some (big, rest)) =>
              let id := length h in
              let o := mkSplit (s_n s1) big rest (t_identity (s_n s1)) [] con in
              Some ((h ++ [Some o], k, out),
                    [TDispose id; TSlice (sl_setToProjOf s1 big) (CLeft id);
                     TSlice (sl_setToProjOf s1 rest) (CRight id)])
          | Some None =>
              match c_split c with
              | LabelSplit f =>
                  match f s1 with
                  | None => None
                  | Some var =>
                      let (hasLabel, rest) := labelSlices s1 var in
                      match st_simplify c rest with
                      | None => None
                      | Some r =>
                          match hasLabel with
                          | None => Some ((h, k, out), [TSlice r con])
                          | Some hl =>
                              match st_simplify c hl with
                              | None => None
                              | Some hl' => Some ((h, k, out), [TSlice hl' con; TSlice r con])
                              end
                          end
                      end
                  end
              | PivotSplit f =>
                  match f rnd k s1 with
                  | None => None
                  | Some (s2, p, k0) =>
                      match st_simplify c (fst (msm_innerSlice s2 p)) with
                      | None => None
                      | Some inner =>
                          match st_simplify c (msm_outerSlice s2 p) with
                          | None => None
                          | Some outer =>
                              let '(slice_, slice2) :=
                                if length (s_I inner) <? length (s_I outer)
                                then (inner, outer) else (outer, inner) in
                              Some ((h, k0, out), [TSlice slice2 con; TSlice slice_ con])
                          end
                      end
                  end
              end
          end
      end
  end.

(** MsmStrategy.cpp:44-65 run. *)
Definition machine_run (fuel : nat) (c : config) (rnd : nat -> nat) (n : nat) (I : ideal)
  : option (world * nat * list event) :=
  match st_simplify c (msm_initial n I) with
  | None => None
  | Some s => run_engine (task_run c rnd) fuel ([], 0, []) [TSlice s CRoot]
  end.
