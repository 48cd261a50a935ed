(** * Reduction of a Hermitian band matrix to tridiagonal form, local: eigensolver/band_to_tridiag/mc.h (54-172 kernels, 174-401 BandBlock,
    452-563 SweepWorker, 656-868 call_L) and api.h:26-37. Exact arithmetic; the BLAS calls are written out, lapack::larfg is a parameter. *)
From Coq Require Import ZArith Lia List Bool.
From Verif Require Import Loop StarField DenseSpec HouseSpec HouseModel SemModel.
Import ListNotations.
Local Open Scope Z_scope.

Section kernels.
Context {K : starfield}.
Local Open Scope sf_scope.
(** lapack::larfg(n, alpha, x, 1, tau): of a vector of length n, beta (overwrites alpha), the tail of the Householder vector, tau *)
Definition larfg_fn := Z -> (Z -> F K) -> F K * (Z -> F K) * F K.
Variable lf : larfg_fn.
(** linear memory; element (x, y) of a column major matrix at address p with leading dimension ld *)
Definition linmem := Z -> F K.
Definition view (B : linmem) (p ld : Z) : mat K := fun x y => B (p + x + y * ld)%Z.
(** writes f x y to the elements (x, y) of the m x n matrix at p for which c x y holds (m <= ld) *)
Definition rect_set (B : linmem) (p ld m n : Z) (c : Z -> Z -> bool) (f : Z -> Z -> F K) : linmem := fun z =>
  let x := ((z - p) mod ld)%Z in let y := ((z - p) / ld)%Z in
  if ((x <? m) && (0 <=? y) && (y <? n))%Z && c x y then f x y else B z.
Definition everywhere (x y : Z) : bool := true.
(** blas::ger: a += alpha x y^H; blas::her2 (Lower): a += alpha x y^H + conj(alpha) y x^H on the lower triangle, here alpha = -1 *)
Definition ger (m n : Z) (alpha : F K) (x y : Z -> F K) (B : linmem) (p ld : Z) : linmem :=
  rect_set B p ld m n everywhere (fun i j => view B p ld i j + alpha * x i * fconj (y j)).
Definition her2 (n : Z) (x y : Z -> F K) (B : linmem) (p ld : Z) : linmem :=
  rect_set B p ld n n (fun i j => (j <=? i)%Z) (fun i j => view B p ld i j + - (x i * fconj (y j)) + - (y i * fconj (x j))).

(** mc.h:54-69 HH_reflector: larfg in place on vec, v := (1, tail), the tail of vec is set to 0. Returns tau, v and the memory. *)
Definition hh_reflector (n : Z) (v0 : Z -> F K) (B : linmem) (p : Z) : F K * (Z -> F K) * linmem :=
  let '(beta, x, tau) := lf n (fun i => B (p + i)%Z) in
  (tau, (fun i => if (i =? 0)%Z then 1 else if ((0 <? i) && (i <? n))%Z then x i else v0 i),
   fun z => if (z =? p)%Z then beta else if ((p <? z) && (z <? p + n))%Z then 0 else B z).
(** mc.h:71-87 apply_HH_left_right_herm: hemv (w = tau a v), dot, axpy, her2 *)
Definition hh_herm (n : Z) (tau : F K) (v : Z -> F K) (B : linmem) (p ld : Z) : linmem :=
  let w := fun x => tau * fsum 0 n (fun y => herm Lower (view B p ld) x y * v y) in
  let tmp := - fsum 0 n (fun x => fconj (w x) * v x) * tau * fhalf in
  let w := fun x => w x + tmp * v x in
  her2 n w v B p ld.
(** mc.h:89-103 apply_HH_left: gemv ConjTrans, ger *)
Definition hh_left (m n : Z) (tau : F K) (v : Z -> F K) (B : linmem) (p ld : Z) : linmem :=
  let w := fun y => fsum 0 m (fun x => fconj (view B p ld x y) * v x) in
  ger m n (- fconj tau) v w B p ld.
(** mc.h:105-119 apply_HH_right: gemv NoTrans, ger *)
Definition hh_right (m n : Z) (tau : F K) (v : Z -> F K) (B : linmem) (p ld : Z) : linmem :=
  let w := fun x => fsum 0 n (fun y => view B p ld x y * v y) in
  ger m n (- tau) w v B p ld.
End kernels.
Arguments larfg_fn : clear implicits.

Section model.
Context {K : starfield} (lf : larfg_fn K).
(** isComplex_v<T>; size of the matrix, tile size, band size, pika::resource::get_num_threads *)
Variables (cplx : bool) (size nb b nthreads : Z).
(** mat_a (read only during the call) *)
Variable A : mat K.
(** mc.h:179-185: ld_ = 2 b - 1; 223-233 ptr *)
Definition b_ld : Z := 2 * b - 1.
Definition ptr (offset j : Z) : Z := j * (b_ld + 1) + offset.
(** api.h:26-37 *)
Definition nr_sweeps : Z := if cplx then size - 1 else size - 2.
Definition nr_steps (sweep : Z) : Z := if sweep =? size - 2 then 1 else ceil_div (size - sweep - 2) b.
(** number of tiles and size of tile k along the diagonal *)
Definition nt : Z := ceil_div size nb.
Definition tsz (k : Z) : Z := Z.min nb (size - k * nb).

(** mc.h:239-280 copy_diag(j = k nb, tile (k, k)) on the CPU: laset, lacpy General (leading dimensions ld + 1), lacpy Lower *)
Definition copy_diag (k : Z) (B : linmem) : linmem :=
  let j := k * nb in let src := fun x y => A (j + x) (j + y) in let cols := tsz k in
  let B := rect_set B (ptr (b + 1) j) (b_ld + 1) (b - 1) cols everywhere (fun _ _ => f0) in
  let index := Z.max 0 (cols - b) in
  let B := if 0 <? index then rect_set B (ptr 0 j) (b_ld + 1) (b + 1) index everywhere (fun x y => src (x + y) y) else B in
  let sz := Z.min b cols in
  rect_set B (ptr 0 (j + index)) b_ld sz sz (fun x y => y <=? x) (fun x y => src (index + x) (index + y)).
(** mc.h:318-354 copy_off_diag(j = k nb, tile (k + 1, k)): lacpy Upper, lacpy General *)
Definition copy_off_diag (k : Z) (B : linmem) : linmem :=
  let j := k * nb in let src := fun x y => A ((k + 1) * nb + x) (j + y) in
  let rows := tsz (k + 1) in let index := nb - b in
  let sz := Z.min b rows in let dest := ptr b (j + index) in
  let B := rect_set B dest b_ld sz sz (fun x y => x <=? y) (fun x y => src x (index + y)) in
  if sz <? b then rect_set B (dest + b_ld * sz) b_ld rows (b - sz) everywhere (fun x y => src x (index + sz + y)) else B.

(** mc.h:475-537 SweepWorker: sweep_ and step_ (set_id 511-514, step_ += 1 in do_step_full 507), first_row_HHR, size_HHR.
    The worker of a sweep is used by that sweep only from start_sweep on, so that sweep_ and step_ before the t-th do_step are [wid s t]. *)
Definition set_id (sweep step : Z) : Z * Z := (sweep, step).
Definition next_id (w : Z * Z) : Z * Z := (fst w, snd w + 1).
Definition wid (sweep step : Z) : Z * Z := Nat.iter (Z.to_nat step) next_id (set_id sweep 0).
Definition first_row (w : Z * Z) : Z := 1 + fst w + snd w * b.
Definition size_hhr (w : Z * Z) : Z := Z.min b (size - first_row w).
(** mc.h:478-484 start_sweep_internal *)
Definition start_sweep (s : Z) (v0 : Z -> F K) (B : linmem) : F K * (Z -> F K) * linmem :=
  hh_reflector lf (Z.min (size - s - 1) b) v0 B (ptr 1 s).
(** mc.h:486-509 do_step_full *)
Definition do_step (w : Z * Z) (tau : F K) (v : Z -> F K) (B : linmem) : F K * (Z -> F K) * linmem :=
  let j := first_row w in let n := size_hhr w in
  let m := Z.min b (size - b - j) in
  let B := hh_herm n tau v B (ptr 0 j) b_ld in
  let B := if 0 <? m then hh_right m n tau v B (ptr n j) b_ld else B in
  if 1 <? m then
    let '(tau, v, B) := hh_reflector lf m v B (ptr n j) in
    (tau, v, hh_left m (n - 1) tau v B (ptr (n - 1) (j + 1)) b_ld)
  else (tau, v, B).
(** mc.h:766-769: where compact_copy_to_tile of a step writes: tiles_v holds the tiles (i, sweep / nb), i >= sweep / nb *)
Definition hh_row (s t : Z) : Z :=
  let j_el_tl := s mod nb in
  let i_el := (j_el_tl / b) * b + t * b in
  (s / nb + i_el / nb) * nb + i_el mod nb.

(** ** Memory: the band block, the data of the workers (tau and v; w is scratch), and the two results mat_trid (columns 0 and 1) and mat_v *)
Inductive loc := LB (z : Z) | LTau (w : Z) | LVec (w i : Z) | LTd (i : Z) | LTe (i : Z) | LHH (i j : Z).
(** mc.h:752-755: number of workers, worker of a sweep (813) *)
Definition max_workers : Z := Z.min (ceil_div size (2 * b - 1)) (2 * nthreads).
Definition worker (s : Z) : Z := s mod max_workers.

(** ** Tasks, split at the synchronisations *)
Inductive act := CopyD (k : Z) | CopyO (k : Z) | Init (s : Z) | TriS (s : Z) | SaveV (s t : Z) | Step (s t : Z) | TriF (i : Z).
Inductive thread := TCopy (k : Z) | TRel (k : Z) | TInit (s : Z) | TRun (s : Z) | TFin | TTri (i : Z).
Definition thread_eq : forall x y : thread, {x = y} + {x <> y}.
Proof. decide equality; apply Z.eq_dec. Defined.
(** copy_tridiag (mc.h:845-851): start, n_d, n_e *)
Definition tri_start (i : Z) : Z := Z.quot (i - 1) nb * nb.
Definition tri_nd (i : Z) : Z := Z.min nb (size - tri_start i).
Definition tri_ne (i : Z) : Z := Z.min nb (size - 1 - tri_start i).
(** the last semaphore *)
Definition last_sem : Z := Z.max 0 nr_sweeps.
(** mc.h:859-862 *)
Definition extra_tri : bool := negb cplx && ((size - 1) mod nb =? 0).
Definition b2t_prog (th : thread) : list (instr thread act) :=
  match th with
  (* 729-733: copy_diag then copy_offdiag of block k *)
  | TCopy k => IAct (CopyD k) :: (if k <? nt - 1 then [IAct (CopyO k)] else [])
  (* 729, 734-740: the releases are chained *)
  | TRel k => IJoin (TCopy k) :: (if 0 <? k then [IJoin (TRel (k - 1))] else []) ++
      [IRel 0 (if k <? nt - 1 then nb / b else ceil_div (size - k * nb) b + 1)]
  (* 791-805, 812-828: w_pipeline.readwrite() waits for the previous sweep that uses the worker; init_sweep / init_sweep_copy_tridiag *)
  | TInit s => (if max_workers <=? s then [IJoin (TRun (s - max_workers))] else []) ++ IAcq s :: IAct (Init s) ::
      (if (s + 1) mod nb =? 0 then [IAct (TriS s)] else [])
  (* 762-776 run_sweep, 842-843 *)
  | TRun s => IJoin (TInit s) ::
      flat_map (fun t => [IAct (SaveV s t); IAcq s; IAct (Step s t); IRel (s + 1) 1]) (zrange 0 (nr_steps s)) ++ [IRel (s + 1) 1]
  (* 854-856 *)
  | TFin => [IAcq last_sem]
  (* 845-851, 859-862: mat_trid.readwrite(tile) waits for the other call if it is on the same tile *)
  | TTri i => IJoin TFin :: (if (i =? size) && extra_tri && (Z.quot (size - 2) nb =? Z.quot (size - 1) nb) then [IJoin (TTri (size - 1))] else []) ++ [IAct (TriF i)]
  end.
Definition b2t_threads : list thread :=
  if size =? 0 then [] else
  map TCopy (zrange 0 nt) ++ map TRel (zrange 0 nt) ++ map TInit (zrange 0 nr_sweeps) ++ map TRun (zrange 0 nr_sweeps) ++
  [TFin] ++ (if extra_tri then [TTri (size - 1)] else []) ++ [TTri size].

(** real part (blas::copy of every second number, mc.h:783-789) *)
Definition re (x : F K) : F K := fmul (fadd x (fconj x)) fhalf.
Definition m_band (m : loc -> F K) : linmem := fun z => m (LB z).
Definition put (m : loc -> F K) (w : Z) (r : F K * (Z -> F K) * linmem) : loc -> F K := fun l =>
  let '(tau, v, B) := r in
  match l with
  | LB z => B z
  | LTau u => if u =? w then tau else m l
  | LVec u i => if u =? w then v i else m l
  | _ => m l
  end.
(** copy_tridiag_task (mc.h:778-789) *)
Definition tri_copy (start nd ne : Z) (m : loc -> F K) : loc -> F K := fun l =>
  match l with
  | LTd i => if (start <=? i) && (i <? start + nd) then re (m (LB (ptr 0 i))) else m l
  | LTe i => if (start <=? i) && (i <? start + ne) then re (m (LB (ptr 1 i))) else m l
  | _ => m l
  end.
(** what an action does to the memory *)
Definition b2t_eff (a : act) (m : loc -> F K) : loc -> F K :=
  match a with
  | CopyD k => fun l => match l with LB z => copy_diag k (m_band m) z | _ => m l end
  | CopyO k => fun l => match l with LB z => copy_off_diag k (m_band m) z | _ => m l end
  | Init s => put m (worker s) (start_sweep s (fun i => m (LVec (worker s) i)) (m_band m))
  | TriS s => tri_copy (s - (nb - 1)) nb nb m
  (* compact_copy_to_tile, mc.h:463-468 *)
  | SaveV s t => fun l => match l with
      | LHH i j => if (j =? s) && (hh_row s t <=? i) && (i <? hh_row s t + size_hhr (wid s t)) then
          (if i =? hh_row s t then m (LTau (worker s)) else m (LVec (worker s) (i - hh_row s t))) else m l
      | _ => m l end
  | Step s t => put m (worker s) (do_step (wid s t) (m (LTau (worker s))) (fun i => m (LVec (worker s) i)) (m_band m))
  | TriF i => tri_copy (tri_start i) (tri_nd i) (tri_ne i) m
  end.
(** ** Footprints: the columns [lo, hi) of the band block that an action touches, the worker it uses, the results it writes *)
Definition cols_of (a : act) : Z * Z :=
  match a with
  | CopyD k | CopyO k => (k * nb, k * nb + tsz k)
  | Init s => (s, s + 1)
  | TriS s => (s - (nb - 1), s + 1)
  | SaveV _ _ => (0, 0)
  | Step s t => (1 + s + t * b, Z.min size (1 + s + (t + 1) * b))
  | TriF i => (tri_start i, tri_start i + tri_nd i)
  end.
Definition is_tri (a : act) : bool := match a with TriS _ | TriF _ => true | _ => false end.
Definition touches (a : act) (z : Z) : bool := let c := z / (2 * b) in (fst (cols_of a) <=? c) && (c <? snd (cols_of a)).
Definition uses_worker (a : act) (w : Z) : bool := match a with Init s | SaveV s _ | Step s _ => w =? worker s | _ => false end.
Definition b2t_rd (a : act) (l : loc) : bool :=
  match l with
  | LB z => touches a z
  | LTau w | LVec w _ => uses_worker a w
  | _ => false
  end.
Definition tri_range (a : act) : Z * Z := match a with TriS _ | TriF _ => cols_of a | _ => (0, 0) end.
Definition tri_last (a : act) : Z := match a with TriS s => s + 1 | TriF i => tri_start i + tri_ne i | _ => 0 end.
Definition b2t_wr (a : act) (l : loc) : bool :=
  match l with
  | LB z => touches a z && negb (is_tri a)
  | LTau w | LVec w _ => uses_worker a w && match a with SaveV _ _ => false | _ => true end
  | LTd i => (fst (tri_range a) <=? i) && (i <? snd (tri_range a))
  | LTe i => (fst (tri_range a) <=? i) && (i <? tri_last a)
  | LHH i j => match a with SaveV s t => (j =? s) && (hh_row s t <=? i) && (i <? hh_row s t + size_hhr (wid s t)) | _ => false end
  end.
Definition b2t : sys thread act loc (F K) := Sys b2t_threads b2t_prog b2t_rd b2t_wr b2t_eff.
End model.
