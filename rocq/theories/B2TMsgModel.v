(** * The point-to-point messages of the distributed band_to_tridiagonal.
    include/dlaf/eigensolver/band_to_tridiag/mc.h:990-1560 (call_L on a grid): for every rank, the list, in program
    order, of the sends, receives and local copies it schedules, with their peers, tags and data.  What the data are is
    recorded by name (which tile, column, worker or block of reflectors); the numerical content, the semaphores and the
    order in which the runtime starts the operations are not modelled here.  Integers are nonnegative, so that / and
    mod of Z are the / and % of C++; the casts of the tags to int are not modelled (see DESIGN.md). *)
From Coq Require Import ZArith Lia List Bool.
From Verif Require Import Loop HouseModel DistGrid DistMat.
Import ListNotations.
Local Open Scope Z_scope.

(** What a message or a copy refers to.
    - DTile i j: tile (i, j) of the input matrix (mc.h:1203-1204);
    - DCol blk j: column j of the band, in the buffer of block blk (BandBlock::ptr, mc.h:447, 464);
    - DWorker blk slot s t: worker number slot of block blk, with the reflector of step t of sweep s (mc.h:635-661);
    - DPanel s0 p x m n: m x n elements, from row x and column 0, of tile p of the panel of the sweeps from s0 (mc.h:1466);
    - DV i j x y m n: m x n elements, from (x, y), of tile (i, j) of mat_v (mc.h:1468, 1496). *)
Inductive data :=
| DTile (i j : Z) | DCol (blk j : Z) | DWorker (blk slot s t : Z)
| DPanel (s0 p x m n : Z) | DV (i j x y m n : Z).
(** A communication of a rank: schedule_send (to, tag, data), schedule_recv (from, tag, data), or a copy without message *)
Inductive op := Send (dst tag : Z) (d : data) | Recv (src tag : Z) (d : data) | Local (src dst : data).

(** eigensolver/internal/get_1d_block_size.h:19-26 (after its two assertions nb >= 1 and base >= 1) *)
Definition get_1d_block_size (base nb : Z) : Z := Z.max 1 (base / nb * nb).

(** size: mat_a.size(); nb: its block size; b: the band size; base: band_to_tridiag_1d_block_size_base;
    P x Q: the grid; src: source rank of mat_a; cplx: isComplex_v<T> *)
Record msg_cfg := Cfg { m_size : Z; m_nb : Z; m_b : Z; m_base : Z; m_P : Z; m_Q : Z; m_src : Z * Z; m_cplx : bool }.

Section msgs.
Variable g : msg_cfg.
Notation size := (m_size g).
Notation nb := (m_nb g).
Notation b := (m_b g).
Notation P := (m_P g).
Notation Q := (m_Q g).

(** mc.h:1062-1063 *)
Definition ntl : Z := ceil_div size nb.
(** mc.h:1084-1087 *)
Definition nranks : Z := P * Q.
Definition prev_rank (r : Z) : Z := if r =? 0 then nranks - 1 else r - 1.
Definition next_rank (r : Z) : Z := if r + 1 =? nranks then 0 else r + 1.
(** mc.h:1093-1095; matrix::Distribution of one tile per block, source rank 0: nrTiles, rankGlobalTile *)
Definition nb_band : Z := get_1d_block_size (m_base g) nb.
Definition tiles_per_block : Z := nb_band / nb.
Definition nblocks : Z := ceil_div size nb_band.
Definition block_rank (id : Z) : Z := id mod nranks.
(** localTileIndex of a block on its rank, and the block whose BandBlock is at that index (mc.h:1164) *)
Definition block_local (id : Z) : Z := id / nranks.
Definition block_at (r l : Z) : Z := r + l * nranks.
(** mc.h:1098 *)
Definition workers_per_tile : Z := 1 + ceil_div nb_band (2 * b - 1).
(** rankFullCommunicator (communicator_grid.h:58, row major) of rankGlobalTile of the distribution of mat_a, which is the
    one of mat_v (mc.h:1067) *)
Definition owner (i j : Z) : Z := drank P Q (m_src g) i j.

(** ** Tags, mc.h:1108-1155 *)
Definition copy_tag (j : Z) (is_offdiag : bool) : Z := 2 * j + (if is_offdiag then 1 else 0).
Definition offset_v_tag : Z := copy_tag ntl false.
Definition v_tag (i j j_origin : Z) (is_bottom : bool) : Z :=
  let ti := i / P in
  let tj := j / Q * (nb / b) + j_origin / b in
  let ld := ceil_div ntl P in
  offset_v_tag + 2 * (ti + ld * tj) + (if is_bottom then 1 else 0).
Definition offset_col_tag : Z := offset_v_tag + 2 * ceil_div ntl P * (ceil_div ntl Q * (nb / b)).
Definition col_tag (id_block : Z) (last_col : bool) : Z := offset_col_tag + id_block / nranks + (if last_col then 1 else 0).
Definition offset_worker_tag : Z := offset_col_tag + (if nranks =? 2 then col_tag (nblocks - 1) true + 1 else 0).
Definition worker_tag (sweep id_block : Z) : Z :=
  offset_worker_tag + (sweep mod workers_per_tile + id_block / nranks * workers_per_tile).

(** ** Copy of the band matrix, mc.h:1193-1260 *)
Definition copy_ops1 (r rank_block : Z) (k : Z) : list op :=
  let rank_diag := owner k k in
  let rank_offdiag := if k =? ntl - 1 then -1 else owner (k + 1) k in
  if r =? rank_block then
    (if r =? rank_diag then [Local (DTile k k) (DTile k k)] else [Recv rank_diag (copy_tag k false) (DTile k k)]) ++
    (if k <? ntl - 1 then
       if r =? rank_offdiag then [Local (DTile (k + 1) k) (DTile (k + 1) k)] else [Recv rank_offdiag (copy_tag k true) (DTile (k + 1) k)]
     else [])
  else
    (if r =? rank_diag then [Send rank_block (copy_tag k false) (DTile k k)] else []) ++
    (if k <? ntl - 1 then
       if r =? rank_offdiag then [Send rank_block (copy_tag k true) (DTile (k + 1) k)] else []
     else []).
Definition copy_ops (r : Z) : list op :=
  flat_map (fun k_block =>
    let k_start := k_block * tiles_per_block in
    let k_end := Z.min (k_start + tiles_per_block) ntl in
    flat_map (copy_ops1 r (block_rank k_block)) (zrange k_start k_end)) (zrange 0 nblocks).

(** ** The sweeps.  api.h:27-36 *)
Definition sweeps : Z := if m_cplx g then size - 1 else size - 2.
Definition steps (sweep : Z) : Z := if sweep =? size - 2 then 1 else ceil_div (size - sweep - 2) b.
(** mc.h:1336 *)
Definition steps_per_block : Z := nb_band / b.
(** for (init_step = 0; init_step < st; init_step += steps_per_block), mc.h:1345, 1452 *)
Definition init_steps (st : Z) : list Z := map (fun k => k * steps_per_block) (zrange 0 (ceil_div st steps_per_block)).
(** mc.h:1346-1443, one iteration *)
Definition step_ops (r sweep init_step : Z) : list op :=
  let st := steps sweep in
  let id_block := init_step * b / nb_band in
  let rank_block := block_rank id_block in
  let next_j := sweep + (init_step + steps_per_block) * b in
  if prev_rank r =? rank_block then
    if next_j <? size then
      [Send (prev_rank r) (col_tag id_block (next_j =? size - 1)) (DCol (block_at r (block_local (id_block + 1))) next_j)]
    else []
  else if r =? rank_block then
    let blk := block_at r (block_local id_block) in
    let slot := sweep mod workers_per_tile in
    (if next_j <? size then [Recv (next_rank r) (col_tag id_block (next_j =? size - 1)) (DCol blk next_j)] else []) ++
    (if init_step =? 0 then [] else [Recv (prev_rank r) (worker_tag sweep id_block) (DWorker blk slot sweep init_step)]) ++
    (let block_steps := Z.min steps_per_block (st - init_step) in
     if init_step + block_steps <? st
     then [Send (next_rank r) (worker_tag sweep (id_block + 1)) (DWorker blk slot sweep (init_step + block_steps))] else [])
  else [].
Definition sweep_ops (r sweep : Z) : list op := flat_map (step_ops r sweep) (init_steps (steps sweep)).

(** ** VAccessHelper, mc.h:894-978, for the panel tile of the steps from step0 of the sweeps from sweep0 *)
Section helper.
Variables sweep0 step0 : Z.
Definition va_index_panel : Z := step0 * b / nb_band.
Definition va_rank_panel : Z := va_index_panel mod nranks.
Definition va_top_row : Z := (sweep0 / b + step0) * b.
Definition va_offset_row : Z := va_top_row mod nb.
Definition va_offset_col : Z := sweep0 mod nb.
Definition va_rows_panel : Z := Z.min (Z.min nb_band (size - va_index_panel * nb_band)) (size - 1 - va_top_row).
Definition va_cols : Z := Z.min va_rows_panel (Z.min b (sweeps - sweep0)).
Definition va_top : Z := Z.min (nb - va_offset_row) va_rows_panel.
Definition va_nr_tiles : Z := 1 + ceil_div (va_rows_panel - va_top) nb.
Definition va_bottom : Z := va_rows_panel - va_top - (va_nr_tiles - 2) * nb.
Definition va_panel_origin (i : Z) : Z := if i =? 0 then 0 else va_top + (i - 1) * nb.
Definition va_rows (i : Z) : Z := if i =? 0 then va_top else if i =? va_nr_tiles - 1 then va_bottom else nb.
Definition va_index_v (i : Z) : Z * Z := (va_top_row / nb + i, sweep0 / nb).
Definition va_v_origin (i : Z) : Z * Z := if i =? 0 then (va_offset_row, va_offset_col) else (0, va_offset_col).
Definition va_rank_v (i : Z) : Z := owner (fst (va_index_v i)) (snd (va_index_v i)).
(** the two sides of piece i *)
Definition va_panel_data (i : Z) : data := DPanel sweep0 va_index_panel (va_panel_origin i) (va_rows i) va_cols.
Definition va_v_data (i : Z) : data :=
  DV (fst (va_index_v i)) (snd (va_index_v i)) (fst (va_v_origin i)) (snd (va_v_origin i)) (va_rows i) va_cols.
Definition va_tag (i : Z) : Z :=
  v_tag (fst (va_index_v i)) (snd (va_index_v i)) (snd (va_v_origin i)) (negb (i =? 0)).
(** mc.h:1459-1510: copy_or_send on the rank of the panel tile, recv on the others *)
Definition v_ops1 (r i : Z) : list op :=
  if r =? va_rank_panel then
    if r =? va_rank_v i then [Local (va_panel_data i) (va_v_data i)] else [Send (va_rank_v i) (va_tag i) (va_panel_data i)]
  else if r =? va_rank_v i then [Recv va_rank_panel (va_tag i) (va_v_data i)] else [].
End helper.
(** mc.h:1446-1452 *)
Definition flushes (sweep : Z) : bool := ((sweep + 1) mod b =? 0) || (sweep + 1 =? sweeps).
Definition v_ops (r sweep : Z) : list op :=
  if flushes sweep then
    let base_sweep := sweep / b * b in
    flat_map (fun init_step => flat_map (v_ops1 base_sweep init_step r) (zrange 0 (va_nr_tiles base_sweep init_step)))
      (init_steps (steps base_sweep))
  else [].

(** ** Everything a rank schedules, in program order, mc.h:1190-1512 *)
Definition prog (r : Z) : list op :=
  if size =? 0 then [] else copy_ops r ++ flat_map (fun s => sweep_ops r s ++ v_ops r s) (zrange 0 sweeps).
End msgs.
