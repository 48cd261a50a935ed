(** * Model of matrix mirrors: include/dlaf/matrix/matrix_mirror.h:26-164. *)
From Coq Require Import List Arith Bool.
From Verif Require Import PipeModel AsyncModel Properties_Async.
Import ListNotations.

Section mirror.
Context {V : Type}.
(** number of local tiles of the matrix, numbered as copy() visits them (matrix/copy.h:53-57) *)
Variable N : nat.

(** Work of the program between construction and destruction of a mirror. Jobs (C20) name tile c < N of the matrix, through get() (Work true) or through the source
    matrix / getSource() (Work false); numbers from N on are tiles of other matrices. copySourceToTarget, copyTargetToSource: matrix_mirror.h:155-163 *)
Inductive op := Work (mirror : bool) (j : job V) | SourceToTarget | TargetToSource.

(** Where the data are. Tiles of the source and of other matrices: even cells. The target matrix: odd cells; if the devices are the same
    (specialisations matrix_mirror.h:41-95) get() is the source (66, 52). *)
Definition place (same mirror : bool) (c : nat) : nat := if negb same && mirror && (c <? N) then 2 * c + 1 else 2 * c.
Fixpoint ren (g : nat -> nat) (b : body V) : body V :=
  match b with
  | Ret => Ret
  | Load c k => Load (g c) (fun v => ren g (k v))
  | Put c v k => Put (g c) v (ren g k)
  | Free i k => Free i (ren g k)
  end.
Definition ren_job (g : nat -> nat) (j : job V) : job V := Job (map (fun a => (g (fst a), snd a)) (j_access j)) (ren g (j_kernel j)).
(** copy(source, dest), matrix/copy.h:36-58, for all the local tiles (copy.h:76-79): when_all(source.read, dest.readwrite) *)
Definition copy_job (src dst : nat) : job V := Job [(src, R); (dst, W)] (Load src (fun v => Put dst v (Free 0 (Free 1 Ret)))).
Definition copy_all (to_target : bool) : list (job V) :=
  map (fun c => copy_job (if to_target then 2 * c else 2 * c + 1) (if to_target then 2 * c + 1 else 2 * c)) (seq 0 N).
(** matrix_mirror.h:81-94 (same device: nothing to do), 155-163 *)
Definition op_jobs (same : bool) (o : op) : list (job V) :=
  match o with
  | Work m j => [ren_job (place same m) j]
  | SourceToTarget => if same then [] else copy_all true
  | TargetToSource => if same then [] else copy_all false
  end.
(** constructors: matrix_mirror.h:47, 71 (same device), 112-115 *)
Definition construct (same : bool) : list (job V) := if same then [] else copy_all true.
(** destructors: implicit (same device), matrix_mirror.h:118 (const elements), 150-152 *)
Definition destroy (same const : bool) : list (job V) := if same || const then [] else copy_all false.
(** what the calling thread submits while the mirror lives, and with its destruction *)
Definition alive (same : bool) (l : list op) : list (job V) := construct same ++ flat_map (op_jobs same) l.
Definition lifetime (same const : bool) (l : list op) : list (job V) := alive same l ++ destroy same const.
End mirror.
Arguments op : clear implicits.
