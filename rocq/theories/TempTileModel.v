(** * Model of communication through temporary tiles: sender/with_temporary_tile.h, communication/kernels/internal/*.h. *)
From Coq Require Import Arith List Bool.
Import ListNotations.
Local Open Scope nat_scope.

Section temp.
Context {V : Type}.
(** A tile: on the GPU (else CPU), contiguous memory (Tile::is_contiguous), content *)
Record ptile := PTile { pt_gpu : bool; pt_contig : bool; pt_val : V }.
(** build options: DLAF_WITH_MPI_GPU_AWARE, DLAF_WITH_MPI_GPU_FORCE_CONTIGUOUS *)
Variables (aware force : bool).
(** CommunicationDevice, communication/rdma.h:26-39: is it the GPU *)
Definition comm_gpu (t : ptile) : bool := pt_gpu t && aware.
(** require_contiguous of broadcasts and messages, src/communication/kernels/broadcast.cpp:39-44, 65-70, p2p.cpp:37-42, 60-65 *)
Definition require_contig (t : ptile) : bool := comm_gpu t && aware && force.

(** withTemporaryTile, sender/with_temporary_tile.h:88-203. A temporary is needed (157-201) *)
Definition needs (dest reqc : bool) (t : ptile) : bool := negb (Bool.eqb (pt_gpu t) dest) || (reqc && negb (pt_contig t)).
(** the tile given to the operation: Duplicate or DuplicateNoCopy (matrix/copy_tile.h:197-225: contiguous; without copy the content is whatever the memory holds, g), or the input *)
Definition buffer (dest to reqc : bool) (g : V) (t : ptile) : ptile := if needs dest reqc t then PTile dest true (if to then pt_val t else g) else t.
(** content of the input tile when the operation has left v in its buffer (with_temporary_tile.h:134-148) *)
Definition after (dest from reqc : bool) (t : ptile) (v : V) : V := if needs dest reqc t then (if from then v else pt_val t) else v.

(** Contract of MPI: content of the buffers after the operation, from the content before. p2p: message from s to d *)
Definition mpi_bcast (root : nat) (b : nat -> V) (r : nat) : V := b root.
Definition mpi_message (s d : nat) (b : nat -> V) (r : nat) : V := if r =? d then b s else b r.
Definition mpi_reduction (op : V -> V -> V) (members : list nat) (b : nat -> V) (default : V) : V :=
  match members with [] => default | m :: l => fold_left (fun x r => op x (b r)) l (b m) end.
Definition mpi_reduce (op : V -> V -> V) (members : list nat) (root : nat) (b : nat -> V) (r : nat) : V := if r =? root then mpi_reduction op members b (b r) else b r.
Definition mpi_all_reduce (op : V -> V -> V) (members : list nat) (b : nat -> V) (r : nat) : V := mpi_reduction op members b (b r).

(** tile of every rank, uninitialised content of its temporary *)
Variables (tiles : nat -> ptile) (g : nat -> V).
(** schedule_bcast_send (copy to, internal/broadcast.h:69), schedule_bcast_recv (copy from, :117) *)
Definition bcast_buffer (root r : nat) : ptile := buffer (comm_gpu (tiles r)) (r =? root) (require_contig (tiles r)) (g r) (tiles r).
Definition bcast (root r : nat) : V :=
  after (comm_gpu (tiles r)) (negb (r =? root)) (require_contig (tiles r)) (tiles r) (mpi_bcast root (fun r => pt_val (bcast_buffer root r)) r).
(** schedule_send (copy to, internal/p2p.h:70), schedule_recv (copy from, :107); ranks s and d only *)
Definition p2p_buffer (s r : nat) : ptile := buffer (comm_gpu (tiles r)) (r =? s) (require_contig (tiles r)) (g r) (tiles r).
Definition p2p (s d r : nat) : V := after (comm_gpu (tiles r)) (r =? d) (require_contig (tiles r)) (tiles r) (mpi_message s d (fun r => pt_val (p2p_buffer s r)) r).
(** schedule_reduce_recv_in_place (copy to and from, internal/reduce.h:97), schedule_reduce_send (copy to, :127): contiguous *)
Definition reduce_buffer (r : nat) : ptile := buffer (comm_gpu (tiles r)) true true (g r) (tiles r).
Definition reduce (op : V -> V -> V) (members : list nat) (root r : nat) : V :=
  after (comm_gpu (tiles r)) (r =? root) true (tiles r) (mpi_reduce op members root (fun r => pt_val (reduce_buffer r)) r).
(** schedule_all_reduce_in_place (copy to and from, internal/all_reduce.h:151) *)
Definition all_reduce_in_place (op : V -> V -> V) (members : list nat) (r : nat) : V :=
  after (comm_gpu (tiles r)) true true (tiles r) (mpi_all_reduce op members (fun r => pt_val (reduce_buffer r)) r).
(** schedule_all_reduce: input (copy to, internal/all_reduce.h:85), output (copy from, :99); result: (input, output) *)
Variables (outs : nat -> ptile) (go : nat -> V).
Definition out_buffer (r : nat) : ptile := buffer (comm_gpu (outs r)) false true (go r) (outs r).
Definition all_reduce (op : V -> V -> V) (members : list nat) (r : nat) : V * V :=
  (after (comm_gpu (tiles r)) false true (tiles r) (pt_val (reduce_buffer r)),
   after (comm_gpu (outs r)) true true (outs r) (mpi_all_reduce op members (fun r => pt_val (reduce_buffer r)) r)).
End temp.
Arguments ptile : clear implicits.
