(** * What the tasks of the distributed band_to_tridiagonal compute.
    include/dlaf/eigensolver/band_to_tridiag/mc.h: 121-171 (kernels for a matrix that is split by the end of the ring buffer), 174-425
    (BandBlock<T, true>), 428-471 (messages of columns), 475-650 (SweepWorkerDist), 1213-1334, 1516-1538 (tasks of call_L on a grid).
    Exact arithmetic; the BLAS calls are written out, lapack::larfg is a parameter, as in B2TModel.  The places of the memory of B2TDistModel
    hold lists: a column of a ring buffer its 2 b elements, a worker tau and the b elements of v (w is scratch), a message its elements, a reflector
    and a tile of mat_trid what the task that stores them writes (first column, then second column of the tile).
    Simplification: Copy takes the tiles of the matrix directly (that they are delivered is C54). *)
From Coq Require Import ZArith Lia List Bool.
From Verif Require Import Loop StarField DenseSpec HouseSpec HouseModel DistGrid DistMat B2TMsgModel SemModel B2TModel B2TDistModel.
Import ListNotations.
Local Open Scope Z_scope.

Section split_kernels.
Context {K : starfield}.
Local Open Scope sf_scope.
(** mc.h:124-147 apply_HH_left_right_herm(n1, n2, ...): hemv, hemv, gemv ConjTrans, gemv NoTrans, dot, axpy, her2, ger, ger, her2 *)
Definition hh_herm2 (n1 n2 : Z) (tau : F K) (v : Z -> F K) (B : linmem) (a1 a2 ld : Z) : linmem :=
  let v2 := fun i => v (n1 + i)%Z in
  let w1 := fun x => tau * fsum 0 n1 (fun y => herm Lower (view B a1 ld) x y * v y) + tau * fsum 0 n2 (fun y => fconj (view B (a1 + n1) ld y x) * v2 y) in
  let w2 := fun x => tau * fsum 0 n2 (fun y => herm Lower (view B a2 ld) x y * v2 y) + tau * fsum 0 n1 (fun y => view B (a1 + n1) ld x y * v y) in
  let w := fun x => if (x <? n1)%Z then w1 x else w2 (x - n1)%Z in
  let tmp := - fsum 0 (n1 + n2) (fun x => fconj (w x) * v x) * tau * fhalf in
  let w := fun x => w x + tmp * v x in
  let w2 := fun i => w (n1 + i)%Z in
  let B := her2 n1 w v B a1 ld in
  let B := ger n2 n1 (- (1)) w2 v B (a1 + n1) ld in
  let B := ger n2 n1 (- (1)) v2 w B (a1 + n1) ld in
  her2 n2 w2 v2 B a2 ld.
(** mc.h:149-154 apply_HH_left(m, n1, n2, ...) *)
Definition hh_left2 (m n1 n2 : Z) (tau : F K) (v : Z -> F K) (B : linmem) (a1 a2 ld : Z) : linmem :=
  hh_left m n2 tau v (hh_left m n1 tau v B a1 ld) a2 ld.
(** mc.h:156-171 apply_HH_right(m, n1, n2, ...): gemv, gemv, ger, ger *)
Definition hh_right2 (m n1 n2 : Z) (tau : F K) (v : Z -> F K) (B : linmem) (a1 a2 ld : Z) : linmem :=
  let v2 := fun i => v (n1 + i)%Z in
  let w := fun x => fsum 0 n1 (fun y => view B a1 ld x y * v y) + fsum 0 n2 (fun y => view B a2 ld x y * v2 y) in
  ger m n2 (- tau) w v2 (ger m n1 (- tau) w v B a1 ld) a2 ld.
End split_kernels.

Section model.
Context {K : starfield} (lf : larfg_fn K) (g : msg_cfg) (A : mat K).
Notation size := (m_size g).
Notation nb := (m_nb g).
Notation b := (m_b g).
Notation spb := (steps_per_block g).
Notation tpb := (tiles_per_block g).
Notation wpt := (workers_per_tile g).
Notation mem := (dloc -> list (F K)).

(** element o of a list *)
Definition vget (l : list (F K)) (o : Z) : F K := nth (Z.to_nat o) l f0.
(** mem_ of the BandBlock of block k, column after column (mc.h:213) *)
Definition bmem (m : mem) (k : Z) : linmem := fun z => vget (m (LCol k (z / (2 * b)))) (z mod (2 * b)).
(** column i of it *)
Definition col_at (B : linmem) (i : Z) : list (F K) := map (fun o => B (i * (2 * b) + o)) (zrange 0 (2 * b)).
(** BandBlock::ptr (mc.h:223-233) with memory_index (416-425); next_split (397-399) *)
Definition rptr (k off j : Z) : Z := ring g k j * (b_ld b + 1) + off.
Definition next_split (k j : Z) : Z := ncols g k - ring g k j.

(** mc.h:239-280 copy_diag(j = jt nb, tile (jt, jt)) on block k; tile size *)
Definition tszd (jt : Z) : Z := Z.min nb (size - jt * nb).
Definition copy_diag_d (k jt : Z) (B : linmem) : linmem :=
  let j := jt * nb in let src := fun x y => A (j + x) (j + y) in let cols := tszd jt in
  let B := rect_set B (rptr k (b + 1) j) (b_ld b + 1) (b - 1) cols everywhere (fun _ _ => f0) in
  let index := Z.max 0 (cols - b) in
  let B := if 0 <? index then rect_set B (rptr k 0 j) (b_ld b + 1) (b + 1) index everywhere (fun x y => src (x + y) y) else B in
  let sz := Z.min b cols in
  rect_set B (rptr k 0 (j + index)) (b_ld b) sz sz (fun x y => y <=? x) (fun x y => src (index + x) (index + y)).
(** mc.h:318-354 copy_off_diag(j = jt nb, tile (jt + 1, jt)) on block k *)
Definition copy_off_diag_d (k jt : Z) (B : linmem) : linmem :=
  let j := jt * nb in let src := fun x y => A ((jt + 1) * nb + x) (j + y) in
  let rows := tszd (jt + 1) in let index := nb - b in
  let sz := Z.min b rows in let dest := rptr k b (j + index) in
  let B := rect_set B dest (b_ld b) sz sz (fun x y => x <=? y) (fun x y => src x (index + y)) in
  if sz <? b then rect_set B (dest + b_ld b * sz) (b_ld b) rows (b - sz) everywhere (fun x y => src x (index + sz + y)) else B.
(** mc.h:1213-1234 *)
Definition copy_d (k jt : Z) (B : linmem) : linmem :=
  let B := copy_diag_d k jt B in if jt <? ntl g - 1 then copy_off_diag_d k jt B else B.

(** mc.h:478-484 start_sweep_internal, block 0 *)
Definition start_sweep_d (s : Z) (v0 : Z -> F K) (B : linmem) : F K * (Z -> F K) * linmem :=
  hh_reflector lf (Z.min (size - s - 1) b) v0 B (rptr 0 1 s).
(** sweep_ and step_ of the worker before step t: set by start_sweep (482) or recv (600-602), at the first step of the block (1422), then incremented *)
Definition wid_d (s t : Z) : Z * Z := Nat.iter (Z.to_nat (t - t / spb * spb)) next_id (set_id s (t / spb * spb)).
(** mc.h:486-509 do_step_full on block k *)
Definition do_step_full_d (k : Z) (w : Z * Z) (tau : F K) (v : Z -> F K) (B : linmem) : F K * (Z -> F K) * linmem :=
  let j := first_row b w in let n := size_hhr size b w in
  let m := Z.min b (size - b - j) in
  let B := hh_herm n tau v B (rptr k 0 j) (b_ld b) in
  let B := if 0 <? m then hh_right m n tau v B (rptr k n j) (b_ld b) else B in
  if 1 <? m then
    let '(tau, v, B) := hh_reflector lf m v B (rptr k n j) in
    (tau, v, hh_left m (n - 1) tau v B (rptr k (n - 1) (j + 1)) (b_ld b))
  else (tau, v, B).
(** mc.h:607-625 do_step_split *)
Definition do_step_split_d (k n1 : Z) (w : Z * Z) (tau : F K) (v : Z -> F K) (B : linmem) : F K * (Z -> F K) * linmem :=
  let j := first_row b w in let n := size_hhr size b w in
  let m := Z.min b (size - b - j) in
  let n2 := n - n1 in
  let B := hh_herm2 n1 n2 tau v B (rptr k 0 j) (rptr k 0 (j + n1)) (b_ld b) in
  let B := if 0 <? m then hh_right2 m n1 n2 tau v B (rptr k n j) (rptr k n2 (j + n1)) (b_ld b) else B in
  if 1 <? m then
    let '(tau, v, B) := hh_reflector lf m v B (rptr k n j) in
    (tau, v, hh_left2 m (n1 - 1) n2 tau v B (rptr k (n - 1) (j + 1)) (rptr k n2 (j + n1)) (b_ld b))
  else (tau, v, B).
(** mc.h:578-590 SweepWorkerDist::do_step *)
Definition do_step_d (k : Z) (w : Z * Z) (tau : F K) (v : Z -> F K) (B : linmem) : F K * (Z -> F K) * linmem :=
  let n1 := next_split k (first_row b w) in
  if n1 <? size_hhr size b w then do_step_split_d k n1 w tau v B else do_step_full_d k w tau v B.

(** copy_tridiag_task (mc.h:1293-1313): blas::copy of n numbers of row off of the band, from column c on, to a column of the tile *)
Definition band_row (B : linmem) (k off c n : Z) : list (F K) := map (fun i => re (B (rptr k off c + i * (b_ld b + 1)))) (zrange 0 n).
Definition tri_copy_d (B : linmem) (start nd ne : Z) : list (F K) :=
  let n1 := next_split 0 start in
  if n1 <? nd then
    band_row B 0 0 start n1 ++ band_row B 0 0 (start + n1) (nd - n1) ++ band_row B 0 1 start n1 ++ band_row B 0 1 (start + n1) (ne - n1)
  else band_row B 0 0 start nd ++ band_row B 0 1 start ne.
(** n_d and n_e of copy_tridiag (mc.h:1517-1523) *)
Definition fin_nd (i : Z) : Z := Z.min nb (size - B2TDistModel.tri_start g i).
Definition fin_ne (i : Z) : Z := Z.min nb (size - 1 - B2TDistModel.tri_start g i).

(** worker: data_(0) = tau, data_(1 ...) = v (mc.h:521-535) *)
Definition wtau (l : list (F K)) : F K := vget l 0.
Definition wvec (l : list (F K)) : Z -> F K := fun i => vget l (1 + i).
Definition wdata (tau : F K) (v : Z -> F K) : list (F K) := tau :: map v (zrange 0 b).
(** what an action does to the memory of its block k and to its worker w *)
Definition put_d (m : mem) (k w : Z) (r : F K * (Z -> F K) * linmem) : mem := fun l =>
  let '(tau, v, B) := r in
  match l with
  | LCol k' i => if k' =? k then col_at B i else m l
  | LWk k' w' => if (k' =? k) && (w' =? w) then wdata tau v else m l
  | _ => m l
  end.
Definition b2td_eff (a : dact) (m : mem) : mem :=
  match a with
  | Copy j => fun l => match l with LCol k i => if k =? j / tpb then col_at (copy_d k j (bmem m k)) i else m l | _ => m l end
  (* MPI_Isend(ptr(0, j), 2 b) / MPI_Irecv(ptr(0, j), 2 b), mc.h:436-437, 455-456 *)
  | SendC s k => fun l => match l with
      | LMC s' k' => if (s' =? s) && (k' =? k) then map (fun o => bmem m k (rptr k 0 (s + k * nb_band g) + o)) (zrange 0 (2 * b)) else m l
      | _ => m l end
  | RecvC s k => fun l => match l with
      | LCol k' i => if k' =? k then let p := rptr k 0 (next_j g s k) in
          col_at (fun z => if (p <=? z) && (z <? p + 2 * b) then vget (m (LMC s (k + 1))) (z - p) else bmem m k z) i else m l
      | _ => m l end
  | Init s => put_d m 0 (s mod wpt) (start_sweep_d s (wvec (m (LWk 0 (s mod wpt)))) (bmem m 0))
  | TriS s => fun l => match l with LTri i => if i =? s / nb then tri_copy_d (bmem m 0) (s - (nb - 1)) nb nb else m l | _ => m l end
  (* compact_copy_to_tile, mc.h:463-468 *)
  | SaveV s t => fun l => match l with
      | LHH s' t' => if (s' =? s) && (t' =? t) then let w := m (LWk (t / spb) (s mod wpt)) in wtau w :: map (wvec w) (zrange 1 (size_hhr size b (wid_d s t))) else m l
      | _ => m l end
  | Step s t => let k := t / spb in let w := m (LWk k (s mod wpt)) in put_d m k (s mod wpt) (do_step_d k (wid_d s t) (wtau w) (wvec w) (bmem m k))
  (* b + 1 elements of data_, mc.h:592-605 *)
  | SendW s k => fun l => match l with
      | LMW s' k' => if (s' =? s) && (k' =? k + 1) then map (vget (m (LWk k (s mod wpt)))) (zrange 0 (b + 1)) else m l
      | _ => m l end
  | RecvW s k => fun l => match l with
      | LWk k' w' => if (k' =? k) && (w' =? s mod wpt) then map (vget (m (LMW s k))) (zrange 0 (b + 1)) else m l
      | _ => m l end
  | TriF i => fun l => match l with LTri t => if t =? tri_tile g i then tri_copy_d (bmem m 0) (B2TDistModel.tri_start g i) (fin_nd i) (fin_ne i) else m l | _ => m l end
  end.
Definition b2td_val (rdv : dthread -> bool) : sys dthread dact dloc (list (F K)) := b2td g rdv b2td_eff.
End model.
