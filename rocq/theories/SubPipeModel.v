(** * Model of sub-pipelines.

    File: include/dlaf/common/pipeline.h:46-160 (Pipeline<T>).
    A history is the list of calls made by the calling thread, in program order.  Each pipeline owns
    one value of type T = V (cell number = pipeline number).  The tasks the calls create are run by
    an arbitrary scheduler (AsyncModel.v). *)
From Coq Require Import List Arith Bool.
From Verif Require Import PipeModel AsyncModel Properties_Async.
Import ListNotations.

Section sub.
Context {V : Type}.
(** value of a moved-from T; T{} *)
Context (moved : V).

Inductive cmd :=
(** read() / readwrite() of some pipelines (pipeline.h:85-98), and the work attached to them *)
| Use (accs : list (nat * mode)) (k : body V)
(** s = p.sub_pipeline() (pipeline.h:100-121) *)
| Sub (p s : nat)
(** s.reset() or ~Pipeline of a sub-pipeline s (pipeline.h:78-80, :131-136, :139-152) *)
| Reset (s : nat).

(** accesses requested by a call, in order.  sub_pipeline(): first the new pipeline, then the parent
    (when_all argument order, pipeline.h:111); release_parent_pipeline(): the sub-pipeline
    (pipeline.h:146); the parent's wrapper is the one kept in nested_sender. *)
Definition accesses (c : cmd) : list (nat * mode) :=
  match c with
  | Use accs _ => accs
  | Sub p s => [(s, W); (p, W)]
  | Reset s => [(s, W)]
  end.
Definition base (hist : list cmd) (i : nat) : nat := length (flat_map accesses (firstn i hist)).

(** the call that made pipeline s, and its parent *)
Fixpoint creator (hist : list cmd) (s : nat) : option (nat * nat) :=
  match hist with
  | [] => None
  | Sub p x :: h => if x =? s then Some (0, p) else option_map (fun r => (S (fst r), snd r)) (creator h s)
  | _ :: h => option_map (fun r => (S (fst r), snd r)) (creator h s)
  end.

Fixpoint index_of (x : nat) (l : list nat) : nat :=
  match l with [] => 0 | y :: l => if y =? x then 0 else S (index_of x l) end.

(** Task created by call number i.  Tasks are numbered by the order lin (any order of the calls: task
    numbers carry no meaning for the scheduler). *)
Definition task_of (hist : list cmd) (lin : list nat) (i : nat) : task V :=
  let b := base hist i in
  match nth_error hist i with
  | Some (Use accs k) => Task (seq b (length accs)) [] (shift b k)
  (* pipeline.h:112-117: sub_wrapper.get() = std::move(wrapper.get()); return wrapper; *)
  | Some (Sub p s) => Task [b; b + 1] [] (Load p (fun v => Put s v (Put p moved (Free b Ret))))
  (* pipeline.h:145-150: wrapper.get() = std::move(sub_wrapper.get()); *)
  | Some (Reset s) =>
      match creator hist s with
      | Some (a, p) => Task [b; base hist a + 1] [index_of a lin]
                         (Load s (fun v => Put p v (Put s moved (Free b (Free (base hist a + 1) Ret)))))
      | None => Task [] [] Ret   (* not used: valid histories reset sub-pipelines only *)
      end
  | None => Task [] [] Ret
  end.
Definition sub_program (hist : list cmd) (lin : list nat) : program V :=
  Program (flat_map accesses hist) (fun m c => m =? c) (map (task_of hist lin) lin).
End sub.
Arguments cmd : clear implicits.
