(** * C62: communication of tiles on any device and with any memory layout. *)
From Coq Require Import Arith List Bool Lia.
From Verif Require Import TempTileModel.
Import ListNotations.

Section c62.
Context {V : Type}.
Variables (aware force : bool) (tiles : nat -> ptile V) (g : nat -> V).

(** op over the contents of the tiles of the members, in their order *)
Fixpoint combine_from (op : V -> V -> V) (x : V) (l : list V) : V := match l with [] => x | y :: l => combine_from op (op x y) l end.

Lemma buf_val : forall d q (x : V) t, pt_val (buffer d true q x t) = pt_val t.
Proof. intros. unfold buffer. destruct (needs d q t); reflexivity. Qed.
Lemma fold_combine : forall (op : V -> V -> V) (f f' : nat -> V) l x, (forall r, f r = f' r) -> fold_left (fun x r => op x (f r)) l x = combine_from op x (map f' l).
Proof. intros op f f'. induction l as [|a l IH]; intros x H; cbn; [reflexivity|]. rewrite H. apply IH, H. Qed.

(** C62. Wherever the tiles of the ranks are (CPU, GPU, contiguous or not), however MPI was built, and whatever the memory of temporaries holds: after a broadcast all the ranks have the tile of the root. *)
Theorem C62_broadcast : forall root r, bcast aware force tiles g root r = pt_val (tiles root).
Proof.
  intros root r. unfold bcast, mpi_bcast, bcast_buffer. rewrite Nat.eqb_refl, buf_val. unfold after. destruct (needs _ _ _); [|reflexivity].
  destruct (Nat.eqb_spec r root) as [->|N]; reflexivity.
Qed.
(** A message gives the receiver the tile of the sender, which keeps it. *)
Theorem C62_message : forall s d r, s <> d -> (r = s \/ r = d) -> p2p aware force tiles g s d r = pt_val (tiles s).
Proof.
  intros s d r NE H. unfold p2p, mpi_message, p2p_buffer. destruct H as [->| ->].
  - destruct (Nat.eqb_spec s d); [contradiction|]. rewrite Nat.eqb_refl, buf_val. unfold after. destruct (needs _ _ _); reflexivity.
  - rewrite !Nat.eqb_refl, buf_val. unfold after. destruct (needs _ _ _); reflexivity.
Qed.
(** Reductions: the root, or all the ranks, or the output tiles get the combination of all the tiles; the other tiles do not change. *)
Theorem C62_reductions : forall op m l outs r,
  let total := combine_from op (pt_val (tiles m)) (map (fun q => pt_val (tiles q)) l) in
  (forall root, reduce aware tiles g op (m :: l) root r = if r =? root then total else pt_val (tiles r)) /\
  all_reduce_in_place aware tiles g op (m :: l) r = total /\
  all_reduce aware tiles g outs op (m :: l) r = (pt_val (tiles r), total).
Proof.
  intros op m l outs r total.
  assert (T : forall d, mpi_reduction op (m :: l) (fun r => pt_val (reduce_buffer aware tiles g r)) d = total).
  { intros d. cbn [mpi_reduction]. unfold total, reduce_buffer. rewrite buf_val. apply fold_combine. intros q. apply buf_val. }
  split; [|split].
  - intros root. unfold reduce, mpi_reduce, after. destruct (Nat.eqb_spec r root) as [->|N]; [rewrite T; destruct (needs _ _ _); reflexivity|]. unfold reduce_buffer. rewrite buf_val. destruct (needs _ _ _); reflexivity.
  - unfold all_reduce_in_place, mpi_all_reduce, after. rewrite T. destruct (needs _ _ _); reflexivity.
  - unfold all_reduce, mpi_all_reduce, after. rewrite T. unfold reduce_buffer. rewrite buf_val. destruct (needs _ _ _), (needs _ _ _); reflexivity.
Qed.
(** The memory MPI gets: GPU memory only if MPI is GPU aware and the tile is on the GPU; contiguous for reductions (the assertions in the kernels hold) and, if requested, whenever it is GPU memory.
    A tile that can be used directly is not copied. *)
Definition mpi_memory_ok (reduction : bool) (t b : ptile V) : Prop :=
  (pt_gpu b = true -> aware = true /\ pt_gpu t = true) /\ (reduction = true -> pt_contig b = true) /\ (force = true -> pt_gpu b = true -> pt_contig b = true) /\
  (pt_contig t = true -> (pt_gpu t = true -> aware = true) -> b = t).
Theorem C62_mpi_memory : forall root s outs go r, mpi_memory_ok false (tiles r) (bcast_buffer aware force tiles g root r) /\ mpi_memory_ok false (tiles r) (p2p_buffer aware force tiles g s r) /\
  mpi_memory_ok true (tiles r) (reduce_buffer aware tiles g r) /\ mpi_memory_ok true (outs r) (out_buffer aware outs go r).
Proof.
  intros root s outs go r. assert (X : forall t : ptile V, forall to x, mpi_memory_ok false t (buffer (comm_gpu aware t) to (require_contig aware force t) x t) /\ mpi_memory_ok true t (buffer (comm_gpu aware t) to true x t)).
  { intros [gp ct v] to x. unfold mpi_memory_ok, buffer, needs, comm_gpu, require_contig. cbn [pt_gpu pt_contig pt_val]. destruct gp, ct, aware, force; cbn; intuition (try discriminate; auto). }
  split; [apply X|]. split; [apply X|]. split; [apply X|apply X].
Qed.
End c62.

(** A case: three ranks, the tile of rank 1 is on the GPU, that of rank 2 is not contiguous; MPI is not GPU aware. Sum at rank 1; the tile of rank 0 is used directly. *)
Definition three (r : nat) : ptile nat := match r with 0 => PTile false true 5 | 1 => PTile true true 7 | _ => PTile false false 9 end.
Example C62_case : map (reduce false three (fun _ => 100) Nat.add [0; 1; 2] 1) [0; 1; 2] = [5; 21; 9] /\ map (bcast false false three (fun _ => 100) 2) [0; 1; 2] = [9; 9; 9] /\
  reduce_buffer false three (fun _ => 100) 0 = three 0 /\ reduce_buffer false three (fun _ => 100) 1 = PTile false true 7.
Proof. repeat split. Qed.

(** ** Assumptions *)
Print Assumptions C62_broadcast.
Print Assumptions C62_message.
Print Assumptions C62_reductions.
Print Assumptions C62_mpi_memory.
