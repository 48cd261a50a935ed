(** * Model of the sub-pipelines of matrices: sub_pipeline() and retiled_sub_pipeline().

    File: include/dlaf/matrix/matrix.h:168-200, :415-489, :541-560 (set_up_sub_pipelines), :562-613 (set_up_retiled_sub_pipelines);
    include/dlaf/matrix/internal/tile_pipeline.h (tile managers).
    Unlike Pipeline<T>::sub_pipeline (SubPipeModel.v) the data is not moved: the tile manager of the new matrix gets a tile that refers to
    the memory of the parent's tile, or to a part of it, and that keeps the parent's access alive (matrix.h:555, :605).  Tile managers have
    numbers; [region m c] tells that the memory cell c belongs to the tile of manager m.  A history is the list of calls in the order in which they are
    made; the tasks are run by an arbitrary scheduler (AsyncModel.v).  For each tile of the parent the calls are: *)
From Coq Require Import List Arith Bool.
From Verif Require Import PipeModel AsyncModel Properties_Async SubPipeModel.
Import ListNotations.

Section tiles.
Context {V : Type}.
Inductive tcmd :=
(** read() / readwrite() of tiles (matrix.h:150-160, :386-396) and the work attached to them *)
| TUse (accs : list (nat * mode)) (k : body V)
(** the parent's tile is requested (tm.readwrite(), matrix.h:552; mat.readwrite(orig_tile_index), matrix.h:593) *)
| TSplit (p : nat)
(** the new managers ss of the (sub-)tiles of the tile requested by call a, and the accesses through which they get their tile
    (matrix.h:551-556; :599-606) *)
| TMake (a : nat) (ss : list nat)
(** the new matrix is destroyed: no request can follow.  The tile of a manager dies when all accesses requested before are released, as if one
    more readwrite access had been requested *)
| TDrop (a : nat) (ss : list nat)
(** when all tiles made from the one requested by call a (managers made by call m, destroyed by call d) are dead, its access is released.  Not a call of
    the user: the last reference to the wrapper of the parent's tile disappears (dep_tracker_, tile.h:318-329, :403-420) *)
| TRelease (a m d : nat).

Definition taccesses (c : tcmd) : list (nat * mode) :=
  match c with
  | TUse accs _ => accs
  | TSplit p => [(p, W)]
  | TMake _ ss | TDrop _ ss => map (fun s => (s, W)) ss
  | TRelease _ _ _ => []
  end.
Definition tbase (hist : list tcmd) (i : nat) : nat := length (flat_map taccesses (firstn i hist)).
Fixpoint frees (l : list nat) : body V := match l with [] => Ret | h :: l => Free h (frees l) end.

(** Task created by call number i; tasks are numbered by the order lin *)
Definition ttask (hist : list tcmd) (lin : list nat) (i : nat) : task V :=
  let b := tbase hist i in
  match nth_error hist i with
  | Some (TUse accs k) => Task (seq b (length accs)) [] (shift b k)
  (* the tile is there; its access is kept *)
  | Some (TSplit p) => Task [b] [] Ret
  (* empty_tile_wrapper.get() = std::move(tile), after the tile is there (when_all, matrix.h:552, :602) *)
  | Some (TMake a ss) => Task (seq b (length ss)) [index_of a lin] (frees (seq b (length ss)))
  | Some (TDrop a ss) => Task (seq b (length ss)) [] (frees (seq b (length ss)))
  | Some (TRelease a m d) => Task [tbase hist a] [index_of a lin; index_of m lin; index_of d lin] (Free (tbase hist a) Ret)
  | None => Task [] [] Ret
  end.
Definition tile_program (region : nat -> nat -> bool) (hist : list tcmd) (lin : list nat) : program V :=
  Program (flat_map taccesses hist) region (map (ttask hist lin) lin).
End tiles.
Arguments tcmd : clear implicits.
