(** * Panels of Householder reflectors: eigensolver/reduction_to_band/impl.h:63-348 (the panel
    factorization) and factorization/qr/t_factor_impl.h (the triangular factor of a block reflector). *)
From Coq Require Import ZArith Lia List Bool.
From Verif Require Import Loop StarField DenseSpec Tiling HouseSpec.
Import ListNotations.
Local Open Scope Z_scope.

Section model.
Context {K : starfield} (rs : roots K).
Local Open Scope sf_scope.
(** A panel: std::vector of tiles, tile i has tl_sz t i rows; all tiles have the same columns. *)
Definition panel := Z -> mat K.
Variable t : tiling.
Definition pset (P : panel) (i : Z) (x : mat K) : panel := fun k => if (k =? i)%Z then x else P k.
Definition mset (A : mat K) (i j : Z) (x : F K) : mat K := fun p q => if ((p =? i) && (q =? j))%Z then x else A p q.
(** ceilDiv(a, b) for non-negative a and positive b (util_math.h:27-32) *)
Definition ceil_div (a b : Z) : Z := ((a + b - 1) / b)%Z.
(** [begin, end) of a worker: t_factor_impl.h:132-134, reduction_to_band/impl.h:288-290 *)
Definition w_begin (batch w : Z) : Z := (w * batch)%Z.
Definition w_end (batch w : Z) : Z := Z.min (w * batch + batch) (tl_n t).
(** for (index = begin; index < end; ++index) panel[index] = f index panel[index] *)
Definition each_tile (f : Z -> mat K -> mat K) (b e : Z) (P : panel) : panel :=
  fold_left (fun P i => pset P i (f i (P i))) (zrange b e) P.

(** reduction_to_band/impl.h:76-104 computeX0AndSquares (blas::dot is the conjugated dot product) *)
Definition x0_and_squares (has_head : bool) (P : panel) (j : Z) : F K * F K :=
  let init := if has_head then (P 0%Z j j, fsum j (tl_sz t 0) (fun p => fconj (P 0%Z p j) * P 0%Z p j)) else (0, 0) in
  (fst init,
   fold_left (fun s i => s + fsum 0 (tl_sz t i) (fun p => fconj (P i p j) * P i p j))
     (zrange (if has_head then 1 else 0) (tl_n t)) (snd init)).

(** reduction_to_band/impl.h:106-130 scaleReflector (blas::scal on the part of column j in tile i that
    belongs to the reflector, its head excluded) *)
Definition scale_reflector (has_head : bool) (j : Z) (alpha : F K) (b e : Z) (P : panel) : panel :=
  each_tile (fun i A p q =>
    let first := if (has_head && (i =? b)%Z)%bool then (j + 1)%Z else 0%Z in
    if ((q =? j) && (first <=? p) && (p <? tl_sz t i))%Z then alpha * A p q else A p q) b e P.

(** reduction_to_band/impl.h:132-155 computeReflectorAndTau *)
Definition reflector_and_tau (has_head : bool) (P : panel) (j : Z) (xs : F K * F K) : panel * F K :=
  let (x0, sq) := xs in
  if feq_dec K sq 0 then (P, 0) else
  let norm := rt rs sq in
  let y := if neg rs x0 then norm else - norm in
  let tau := (y - x0) * finv y in
  let alpha := finv (x0 - y) in
  let P := if has_head then pset P 0 (mset (P 0%Z) j j y) else P in
  (scale_reflector has_head j alpha 0 (tl_n t) P, tau).

(** reduction_to_band/impl.h:157-181 computeWTrailingPanel: w += Pt^H v over the tiles [b, e) *)
Definition w_trailing (has_head : bool) (P : panel) (j : Z) (b e : Z) (w : Z -> F K) : Z -> F K :=
  fold_left (fun w i => fun q =>
    w q + fsum (if ((i =? 0)%Z && has_head)%bool then j else 0%Z) (tl_sz t i)
            (fun p => fconj (P i p (j + 1 + q)%Z) * P i p j)) (zrange b e) w.

(** reduction_to_band/impl.h:183-206 updateTrailingPanel: Pt -= conj(tau) v w^H over the tiles [b, e)
    (cols is the width of the tiles) *)
Definition update_trailing (has_head : bool) (cols j : Z) (w : Z -> F K) (tau : F K) (b e : Z) (P : panel) : panel :=
  each_tile (fun i A p q =>
    let first := if ((i =? 0)%Z && has_head)%bool then j else 0%Z in
    if ((j <? q) && (q <? cols) && (first <=? p) && (p <? tl_sz t i))%Z
    then A p q + - fconj tau * A p j * fconj (w (q - (j + 1))%Z) else A p q) b e P.

(** reduction_to_band/impl.h:63-73 reduceColumnVectors *)
Definition reduce_vectors (nw : Z) (w : Z -> Z -> F K) : Z -> F K :=
  fold_left (fun acc i => fun q => acc q + w i q) (zrange 1 nw) (w 0%Z).

(** reduction_to_band/impl.h:283-347: the bulk task of local::computePanelReflectors. nw workers, in
    phases separated by barriers; within a phase the workers run in any order ([ord j] is the order in
    which they run the only phase, STEP3, in which more than one of them writes shared data: phase 2a
    writes only w[index], the other phases are run by worker 0 alone). State: the tiles, the taus, and
    whether the loop was left. Simplification: a phase of one worker is one step. *)
Definition panel_step (nw cols : Z) (ord : Z -> list Z) (st : panel * (Z -> F K) * bool) (j : Z) : panel * (Z -> F K) * bool :=
  let '(P, taus, stop) := st in
  if stop then st else
  let batch := ceil_div (tl_n t) nw in
  (* STEP1 (296-299) *)
  let (P, tau) := reflector_and_tau true P j (x0_and_squares true P j) in
  let taus := fun i => if (i =? j)%Z then tau else taus i in
  (* 303-305: continue *)
  if feq_dec K tau 0 then (P, taus, false) else
  (* 307-311: break *)
  if (cols - (j + 1) <=? 0)%Z then (P, taus, true) else
  (* 320-327: use the band element as head of the reflector *)
  let y := P 0%Z j j in
  let P := pset P 0 (mset (P 0%Z) j j 1) in
  (* STEP2a, STEP2b (329-337) *)
  let w := reduce_vectors nw (fun k => w_trailing (k =? 0)%Z P j (w_begin batch k) (w_end batch k) (fun _ => 0)) in
  (* STEP3 (340) *)
  let P := fold_left (fun P k => update_trailing (k =? 0)%Z cols j w tau (w_begin batch k) (w_end batch k) P) (ord j) P in
  (* 344-346 *)
  (pset P 0 (mset (P 0%Z) j j y), taus, false).
Definition panel_reflectors (nw cols nrefls : Z) (ord : Z -> list Z) (P : panel) (taus : Z -> F K) : panel * (Z -> F K) :=
  fst (fold_left (panel_step nw cols ord) (zrange 0 nrefls) (P, taus, false)).

(** reduction_to_band/impl.h:274-280: the number of workers *)
Definition panel_nworkers (available minwork : Z) : Z :=
  Z.max 1 (Z.min (ceil_div (tl_n t) minwork) available).

(** ** T factor *)
(** t_factor_impl.h:54-69 split_tfactor_work: (nworkers, batch_size) *)
Definition tfactor_batch (available : Z) : Z := ceil_div (tl_n t) (Z.max 1 (Z.min (tl_n t) available)).
Definition tfactor_nworkers (available : Z) : Z := Z.max 1 (ceil_div (tl_n t) (tfactor_batch available)).

(** t_factor_impl.h:184-207 loop_gemv: T(0:j, j) += -tau V(:, 0:j)^H V(:, j), j = 0 .. k-1, tau = T(j, j) *)
Definition loop_gemv (k rows : Z) (V : mat K) (T : mat K) : mat K :=
  fold_left (fun T j => fun p q =>
    if ((q =? j) && (0 <=? p) && (p <? j))%Z
    then T p q + - T j j * fsum 0 rows (fun r => fconj (V r p) * V r j) else T p q) (zrange 0 k) T.
(** t_factor_impl.h:140-142: set0, then the taus on the diagonal *)
Definition taus_diag (k : Z) (taus : Z -> F K) (T : mat K) : mat K := fun p q => if ((p =? q) && (0 <=? p) && (p <? k))%Z then taus p else T p q.
(** t_factor_impl.h:129-148: worker w *)
Definition gemv_worker (k batch : Z) (V : panel) (taus : Z -> F K) (w : Z) : mat K :=
  fold_left (fun T i => loop_gemv k (tl_sz t i) (V i) T) (zrange (w_begin batch w) (w_end batch w)) (taus_diag k taus (fun _ _ => 0)).
(** t_factor_impl.h:90-166 step_gemv (worker 0 adds the workspaces of the others to tile_t) *)
Definition step_gemv (available k : Z) (V : panel) (taus : Z -> F K) (T : mat K) : mat K :=
  if (tl_n t =? 0)%Z then T else
  fold_left (fun T w => fun p q => T p q + 1 * gemv_worker k (tfactor_batch available) V taus w p q)
    (zrange 1 (tfactor_nworkers available)) (gemv_worker k (tfactor_batch available) V taus 0).
(** t_factor_impl.h:209-222 loop_trmv: T(0:j, j) := T(0:j, 0:j) T(0:j, j) *)
Definition loop_trmv (k : Z) (T : mat K) : mat K :=
  fold_left (fun T j => fun p q =>
    if ((q =? j) && (0 <=? p) && (p <? j))%Z then fsum 0 j (fun r => trim Upper NonUnit T p r * T r j) else T p q) (zrange 0 k) T.
(** t_factor_impl.h:168-182 step_copy_diag_and_trmv *)
Definition copy_diag_and_trmv (k : Z) (taus : Z -> F K) (T : mat K) : mat K := loop_trmv k (taus_diag k taus T).
(** t_factor_impl.h:389-420 QR_Tfactor::call (local) *)
Definition tfactor (available k : Z) (V : panel) (taus : Z -> F K) (T : mat K) : mat K :=
  if (k =? 0)%Z then T else copy_diag_and_trmv k taus (step_gemv available k V taus T).
End model.
