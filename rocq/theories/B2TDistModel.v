(** * The tasks of the distributed band_to_tridiagonal and their synchronisation.
    include/dlaf/eigensolver/band_to_tridiag/mc.h:1158-1545 (call_L on a grid), all ranks together: the counting semaphores of the
    blocks, the pipelines of the workers, the messages of columns and workers, and the memory that the tasks share (the columns
    of the band blocks, which are ring buffers, the workers, the tridiagonal matrix, the reflectors).  What the tasks compute is
    a parameter, restricted only to the memory that they read and write.  A send may or may not wait for the matching receive
    (MPI leaves that open): [rdv] says for each send whether it does.
    Simplifications: the copy of a tile of the band (messages included, see C54) is one action; panel_v is not reused, so that the
    reflectors of each step have a place of their own, and their messages to mat_v and the final broadcast are left out;
    a message is matched with the receive of the same sweep and block (C54 and C55_column_messages_in_order, C55_worker_messages_in_order). *)
From Coq Require Import ZArith Lia List Bool.
From Verif Require Import Loop HouseModel DistGrid DistMat B2TMsgModel SemModel.
Import ListNotations.
Local Open Scope Z_scope.

(** ** Actions
    Copy j: copy_diag and copy_offdiag of column j of tiles (mc.h:1213-1234);
    SendC s k / RecvC s k: in sweep s, block k sends its first column to block k - 1 / receives the first column of block k + 1
    (mc.h:435-471, 1350-1365, 1382-1402); Init s: start_sweep; TriS s: copy_tridiag_task in init_sweep_copy_tridiag (1315-1334);
    SaveV s t: compact_copy_to_tile; Step s t: do_step (1276-1291); SendW s k / RecvW s k: block k sends / receives the worker of
    sweep s (635-661, 1422-1424, 1440-1442); TriF i: copy_tridiag (1516-1538) *)
Inductive dact := Copy (j : Z) | SendC (s k : Z) | RecvC (s k : Z) | Init (s : Z) | TriS (s : Z) | SaveV (s t : Z) | Step (s t : Z)
| SendW (s k : Z) | RecvW (s k : Z) | TriF (i : Z).
(** ** Tasks.  TPostC, TPostW: the receive is ready (its buffer is available); TAcq: the acquire of send_col_dep; TRel: release of the
    semaphore after a copy; TStep s t: the t-th step of sweep s, run_steps being one step after the other; TNil: nothing *)
Inductive dthread := TCopy (j : Z) | TRel (j : Z) | TAcq (s k : Z) | TSendC (s k : Z) | TPostC (s k : Z) | TRecvC (s k : Z)
| TInit (s : Z) | TPostW (s k : Z) | TRecvW (s k : Z) | TStep (s t : Z) | TSendW (s k : Z) | TFin | TTri (i : Z) | TNil.
Definition dthread_eq : forall x y : dthread, {x = y} + {x <> y}.
Proof. decide equality; apply Z.eq_dec. Defined.
(** ** Memory: place i of the ring buffer of block k; worker number w of block k; message of a column, of a worker, to or from
    block k in sweep s; reflector of step t of sweep s; tile i of mat_trid *)
Inductive dloc := LCol (k i : Z) | LWk (k w : Z) | LMC (s k : Z) | LMW (s k : Z) | LHH (s t : Z) | LTri (i : Z).

Section model.
Variable g : msg_cfg.
Variable rdv : dthread -> bool.
Notation size := (m_size g).
Notation nb := (m_nb g).
Notation b := (m_b g).
Notation nbb := (nb_band g).
Notation spb := (steps_per_block g).
Notation tpb := (tiles_per_block g).
Notation wpt := (workers_per_tile g).

(** next_j of block k in sweep s (mc.h:1350, 1381); is there a column to be sent to block k (1351, 1382) *)
Definition next_j (s k : Z) : Z := s + (k + 1) * nbb.
(** block k has steps in sweep s: the loop of mc.h:1345 *)
Definition active (s k : Z) : bool := k * spb <? steps g s.
(** last step of block k in sweep s: init_step + block_steps - 1 (mc.h:1430) *)
Definition last_step (s k : Z) : Z := Z.min ((k + 1) * spb) (steps g s) - 1.
(** the sweeps in which block k replaces its semaphore (mc.h:1438: sem = sem_next) are the first ones, those in which it is active *)
Definition last_sem (k : Z) : Z := Z.max 0 (size - 2 - k * nbb).
(** the semaphore of block k in sweep s: a number for the semaphore that the sweep s - 1 created *)
Definition sid (s k : Z) : Z := s * (nblocks g + 1) + k.
(** bool last_step (mc.h:1429): the extra release *)
Definition extra (s t : Z) : bool := (t =? steps g s - 1) && negb (next_j s (t / spb) =? size - 2).
(** what a step waits for in the worker pipeline and in run_steps (mc.h:1404-1436) *)
Definition step_prev (s t : Z) : dthread :=
  if t =? 0 then TInit s else if t mod spb =? 0 then TRecvW s (t / spb) else TStep s (t - 1).
(** the last use of the worker of block k in sweep s: send_worker (mc.h:1440), otherwise run_steps *)
Definition wlast (s k : Z) : dthread := if (k + 1) * spb <? steps g s then TSendW s k else TStep s (last_step s k).
(** w_pipeline.readwrite() (mc.h:1372): the worker sweep % workers_per_tile was last used workers_per_tile sweeps before *)
Definition wpred (s k : Z) : dthread := if s <? wpt then TNil else wlast (s - wpt) k.
(** dep_block (mc.h:1260, 1432) *)
Definition col_dep (s k : Z) : dthread := if s =? 0 then TRel (Z.min ((k + 1) * tpb) (ntl g) - 1) else TStep (s - 1) (last_step (s - 1) k).
(** mc.h:1519-1521: tile of copy_tridiag *)
Definition tri_tile (i : Z) : Z := Z.quot (i - 1) nb.
(** mc.h:1206, 1237: releases after the copy of tile column j *)
Definition nr_release (j : Z) : Z := if j <? ntl g - 1 then nb / b else ceil_div (size - j * nb) b + 1.

Definition dprog (th : dthread) : list (instr dthread dact) :=
  match th with
  (* 1213-1234 *)
  | TCopy j => [IAct (Copy j)]
  (* 1201, 1240-1243: the releases of a block are chained *)
  | TRel j => [IJoin (TCopy j); IJoin (if j mod tpb =? 0 then TNil else TRel (j - 1)); IRel (sid 0 (j / tpb)) (nr_release j)]
  (* 1356-1359 *)
  | TAcq s k => [IAcq (sid (Z.min s (last_sem k)) k)]
  (* 1360-1363 *)
  | TSendC s k => [IJoin (TAcq s k); IJoin (if rdv (TSendC s k) then TPostC s (k - 1) else TNil); IAct (SendC s k)]
  (* 1396-1402 *)
  | TPostC s k => [IJoin (col_dep s k)]
  | TRecvC s k => [IJoin (TPostC s k); IJoin (TSendC s (k + 1)); IAct (RecvC s k); IRel (sid s k) 1]
  (* 1404-1420 *)
  | TInit s => [IJoin (wpred s 0); IAcq (sid s 0); IAct (Init s)] ++ (if (s + 1) mod nb =? 0 then [IAct (TriS s)] else [])
  (* 1422-1424 *)
  | TPostW s k => [IJoin (wpred s k)]
  | TRecvW s k => [IJoin (TPostW s k); IJoin (TSendW s (k - 1)); IAct (RecvW s k)]
  (* 1276-1291, 1426, 1432-1436 *)
  | TStep s t => [IJoin (step_prev s t); IJoin (if (0 <? t) && (t mod spb =? 0) then TAcq s (t / spb) else TNil);
      IAct (SaveV s t); IAcq (sid s (t / spb)); IAct (Step s t); IRel (sid (s + 1) (t / spb)) 1] ++
      (if extra s t then [IRel (sid (s + 1) (t / spb)) 1] else [])
  (* 1440-1443 *)
  | TSendW s k => [IJoin (TStep s (last_step s k)); IJoin (if rdv (TSendW s k) then TPostW s (k + 1) else TNil); IAct (SendW s k)]
  (* 1528-1530 *)
  | TFin => [IAcq (sid (Z.max 0 (sweeps g)) 0)]
  (* 1516-1526, 1532-1538: mat_trid.readwrite(tile) waits for the other call if it is on the same tile *)
  | TTri i => [IJoin TFin; IJoin (if (i =? size) && negb (m_cplx g) && (tri_tile (size - 1) =? tri_tile size) then TTri (size - 1) else TNil); IAct (TriF i)]
  | TNil => []
  end.
(** the tasks of block k in sweep s, mc.h:1346-1443 *)
Definition block_threads (s k : Z) : list dthread :=
  (if next_j s k <? size then [TAcq s (k + 1); TSendC s (k + 1); TPostC s k; TRecvC s k] else []) ++
  (if k =? 0 then [TInit s] else [TPostW s k; TRecvW s k]) ++
  map (TStep s) (zrange (k * spb) (last_step s k + 1)) ++
  (if (k + 1) * spb <? steps g s then [TSendW s k] else []).
Definition dthreads : list dthread :=
  if size =? 0 then [] else
  map TCopy (zrange 0 (ntl g)) ++ map TRel (zrange 0 (ntl g)) ++
  flat_map (fun s => flat_map (block_threads s) (zrange 0 (ceil_div (steps g s) spb))) (zrange 0 (sweeps g)) ++
  [TFin] ++ (if m_cplx g then [] else [TTri (size - 1)]) ++ [TTri size].

(** ** Footprints.  BandBlock, mc.h:208-213, 416-425: mem_size_col_, memory_index *)
Definition ncols (k : Z) : Z := 2 + nbb + (if k =? 0 then nbb else 0).
Definition ring (k j : Z) : Z := (j - nbb * k) mod ncols k.
Definition tri_start (i : Z) : Z := tri_tile i * nb.
(** the block and the columns [lo, hi) that an action reads (and writes, except TriS, TriF and SendC) *)
Definition cols_of (a : dact) : Z * Z * Z :=
  match a with
  | Copy j => (j / tpb, j * nb, Z.min size ((j + 1) * nb))
  | SendC s k => (k, s + k * nbb, s + k * nbb + 1)
  | RecvC s k => (k, next_j s k, next_j s k + 1)
  | Init s => (0, s, s + 1)
  | TriS s => (0, s - (nb - 1), s + 1)
  | Step s t => (t / spb, 1 + s + t * b, Z.min size (1 + s + (t + 1) * b))
  | TriF i => (0, tri_start i, tri_start i + Z.min nb (size - tri_start i))
  | SaveV _ _ | SendW _ _ | RecvW _ _ => (0, 0, 0)
  end.
Definition touches (a : dact) (k i : Z) : bool :=
  let '(blk, lo, hi) := cols_of a in (k =? blk) && existsb (fun j => ring k j =? i) (zrange lo hi).
Definition writes_cols (a : dact) : bool := match a with SendC _ _ | TriS _ | TriF _ => false | _ => true end.
(** the worker of an action *)
Definition worker_of (a : dact) : option (Z * Z) :=
  match a with
  | Init s => Some (0, s mod wpt)
  | SaveV s t | Step s t => Some (t / spb, s mod wpt)
  | SendW s k | RecvW s k => Some (k, s mod wpt)
  | _ => None
  end.
Definition writes_worker (a : dact) : bool := match a with SaveV _ _ | SendW _ _ => false | _ => true end.
Definition uses_worker (a : dact) (k w : Z) : bool := match worker_of a with Some (k', w') => (k =? k') && (w =? w') | None => false end.
Definition drd (a : dact) (l : dloc) : bool :=
  match l with
  | LCol k i => touches a k i
  | LWk k w => uses_worker a k w
  | LMC s k => match a with RecvC s' k' => (s =? s') && (k =? k' + 1) | _ => false end
  | LMW s k => match a with RecvW s' k' => (s =? s') && (k =? k') | _ => false end
  | LHH _ _ | LTri _ => false
  end.
Definition dwr (a : dact) (l : dloc) : bool :=
  match l with
  | LCol k i => touches a k i && writes_cols a
  | LWk k w => uses_worker a k w && writes_worker a
  | LMC s k => match a with SendC s' k' => (s =? s') && (k =? k') | _ => false end
  | LMW s k => match a with SendW s' k' => (s =? s') && (k =? k' + 1) | _ => false end
  | LHH s t => match a with SaveV s' t' => (s =? s') && (t =? t') | _ => false end
  | LTri i => match a with TriS s => i =? s / nb | TriF j => i =? tri_tile j | _ => false end
  end.
(** what the actions compute *)
Context {V : Type}.
Variable deff : dact -> (dloc -> V) -> dloc -> V.
Definition b2td : sys dthread dact dloc V := Sys dthreads dprog drd dwr deff.

(** ** The sequential order: the copies, then sweep by sweep the columns, the first reflector, the steps with the moves of the worker *)
Definition sweep_seq (s : Z) : list dact :=
  flat_map (fun k => if next_j s k <? size then [SendC s (k + 1); RecvC s k] else []) (zrange 0 (ceil_div (steps g s) spb)) ++
  Init s :: (if (s + 1) mod nb =? 0 then [TriS s] else []) ++
  flat_map (fun t => (if (0 <? t) && (t mod spb =? 0) then [SendW s (t / spb - 1); RecvW s (t / spb)] else []) ++ [SaveV s t; Step s t]) (zrange 0 (steps g s)).
Definition dseq : list dact :=
  if size =? 0 then [] else
  map Copy (zrange 0 (ntl g)) ++ flat_map sweep_seq (zrange 0 (sweeps g)) ++ (if m_cplx g then [] else [TriF (size - 1)]) ++ [TriF size].
End model.
