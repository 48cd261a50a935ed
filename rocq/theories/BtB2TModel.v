(** * Back transformation of the reduction of a band matrix to tridiagonal form, local:
    eigensolver/bt_band_to_tridiag/impl.h:59-156, 158-200, 229-289, 324-434, 505-530, 607-735, as the list of tile jobs it submits. *)
From Coq Require Import ZArith Lia List Bool.
From Verif Require Import Loop StarField DenseSpec Tiling DenseJobs HouseSpec HouseModel MultiJobs Red2BandModel.
Import ListNotations.
Local Open Scope Z_scope.

Section kernels.
Context {K : starfield} (kn : kernels K).
(** lapack::larft(Forward, Columnwise, n, k, V, tau, T): the new T *)
Definition larft_fn := Z -> Z -> mat K -> (Z -> F K) -> mat K -> mat K.
(** Its contract (LAPACK xLARFT): V is unit lower trapezoidal (the diagonal and what is above it are not read), only the upper
    triangle of T is set, and H_0 ... H_(k-1) = I - V T V^H. *)
Definition larft_ok (lf : larft_fn) : Prop := forall n k V tau T, 0 <= k <= n ->
  meq n n (refl_prod n (unit_lower V) tau (Z.to_nat k))
          (msub ident (mmul k (mmul k (unit_lower V) (trim Upper NonUnit (lf n k V tau T))) (adj (unit_lower V)))).
Variable larft : larft_fn.

(** lapack::laset(Upper, m, n, offdiag, diag, A) and laset(Lower, ...) *)
Definition laset_upper (m n : Z) (o d : F K) (A : mat K) : mat K := fun p q =>
  if (0 <=? p) && (p <? m) && (0 <=? q) && (q <? n) then if p =? q then d else if p <? q then o else A p q else A p q.
Definition laset_lower (m n : Z) (o d : F K) (A : mat K) : mat K := fun p q =>
  if (0 <=? p) && (p <? m) && (0 <=? q) && (q <? n) then if p =? q then d else if q <? p then o else A p q else A p q.

(** setupVWellFormed (59-98): rows x k is the size of tile_v, hh_rows the number of rows of tile_hh *)
Definition setup_v (b rows k hh_rows : Z) (hh v : mat K) : mat K :=
  let v1 := fold_left (fun v j =>
    let compact := Z.min (rows - (1 + j)) (hh_rows - 1) in
    if compact =? 0 then v else paste (1 + j) j compact 1 v (sub 1 j hh)) (zrange 0 k) v in
  let v2 := laset_upper rows k f0 f1 v1 in
  if b <? rows then paste b 0 (rows - b) (k - 1) v2 (laset_lower (rows - b) (k - 1) f0 f0 (sub b 0 v2)) else v2.

(** the first columns of the groups of reflectors (125, 145, 189: for j = 0; j < k; j += hhr_nb; in 189, 275 from the last one to the first) *)
Definition group_cols (k g : Z) : list Z := map (fun x => x * g) (zrange 0 (ceil_div k g)).
(** 126, 146, 190 *)
Definition group_jb (k g j : Z) : Z := Z.min g (k - j).
Definition group_ib (b rows k g j : Z) : Z := Z.min (group_jb k g j + b - 1) (rows - j).

(** computeTFactor (100-118), computeVT (120-134): taus are the first row of tile_hh *)
Definition compute_t (b rows k g : Z) (hh v t : mat K) : mat K :=
  fold_left (fun t j => paste j j (group_jb k g j) (group_jb k g j) t
    (larft (group_ib b rows k g j) (group_jb k g j) (sub j j v) (fun x => hh 0 (j + x)) (sub j j t))) (group_cols k g) t.
(** computeVW (136-156): trmm3 writes v t to w *)
Definition compute_w (b rows k g : Z) (v t w : mat K) : mat K :=
  fold_left (fun w j => paste j j (group_ib b rows k g j) (group_jb k g j) w
    (trmm kn Right Upper NoTrans NonUnit (group_ib b rows k g j) (group_jb k g j) f1 (sub j j t) (sub j j v))) (group_cols k g) w.

(** ApplyHHToSingleTileRow (158-200): rows x k is the size of tile_v, cols the number of columns of tile_e, which has rows + 1 rows *)
Definition apply_single (rows k g cols : Z) (v w : mat K) (w2 e : mat K) : mat K * mat K :=
  fold_left (fun (s : mat K * mat K) j => let '(w2, e) := s in
    let jb := group_jb k g j in let ib := rows - j in
    let w2' := paste 0 0 jb cols w2 (gemm kn ConjTrans NoTrans jb cols ib f1 (sub j j v) (sub (j + 1) 0 e) f0 w2) in
    (w2', paste (j + 1) 0 ib cols e (gemm kn NoTrans NoTrans ib cols jb (fopp f1) (sub j j w) w2' f1 (sub (j + 1) 0 e))))
    (rev (group_cols k g)) (w2, e).
(** ApplyHHToDoubleTileRow (229-289): top, bot are the numbers of rows of tile_e_top and tile_e_bottom *)
Definition apply_double (top bot k g cols : Z) (v w : mat K) (w2 et eb : mat K) : mat K * mat K * mat K :=
  fold_left (fun (s : mat K * mat K * mat K) j => let '(w2, et, eb) := s in
    let jb := group_jb k g j in
    let it := top - (j + 1) in
    let ibt := Z.min bot (j + jb) in
    let wa := paste 0 0 jb cols w2 (gemm kn ConjTrans NoTrans jb cols it f1 (sub j j v) (sub (j + 1) 0 et) f0 w2) in
    let wb := paste 0 0 jb cols wa (gemm kn ConjTrans NoTrans jb cols ibt f1 (sub (top - 1) j v) eb f1 wa) in
    (wb, paste (j + 1) 0 it cols et (gemm kn NoTrans NoTrans it cols jb (fopp f1) (sub j j w) wb f1 (sub (j + 1) 0 et)),
         paste 0 0 ibt cols eb (gemm kn NoTrans NoTrans ibt cols jb (fopp f1) (sub (top - 1) j w) wb f1 eb)))
    (rev (group_cols k g)) (w2, et, eb).

(** ** The algorithm. mat_hh and mat_e are seen through their retilings (630-633): tiles of b x b, and of b rows with the columns of
    the tiles of mat_e. *)
Variable cplx : bool.
(** size of mat_hh, rows of mat_e; band size; group size; tile columns of mat_e *)
Variables m b g : Z.
Variable tc : tiling.
(** api.h:26-36 *)
Definition t_sweeps : Z := if cplx then m - 1 else m - 2.
Definition t_steps (sweep : Z) : Z := if sweep =? m - 2 then 1 else ceil_div (m - sweep - 2) b.
(** 667 *)
Definition j_last : Z := (t_sweeps - 1) / b.
(** tile rows of mat_e *)
Definition e_rows : Z := ceil_div m b.
Definition e_sz (i : Z) : Z := Z.min b (m - i * b).

Definition tHH (i j : Z) : tid := Tid 0 0 i j.
Definition tE (i j : Z) : tid := Tid 0 1 i j.
(** 658-662, 669-672: two panels of each kind, used in turn *)
Definition t_par (j : Z) : Z := (j_last - j) mod 2.
Definition tV (j i : Z) : tid := Tid 0 (2 + t_par j) i 0.
Definition tT (j i : Z) : tid := Tid 0 (4 + t_par j) i 0.
Definition tW (j i : Z) : tid := Tid 0 (6 + t_par j) i 0.
Definition tW2 (j je : Z) : tid := Tid 0 (8 + t_par j) je 0.

Section step.
Variables j step : Z.
(** 677 *)
Definition t_i : Z := j + step.
(** 683-690 *)
Definition t_size1 : bool := cplx && (j =? j_last) && (step =? t_steps (j * b) - 1).
Definition t_nrefls : Z := Z.min b (Z.min (m - t_i * b - 1 - (if t_size1 then 0 else 1)) (Z.min b (m - j * b))).
(** TileAccessHelper (324-369): rows of the well formed reflectors, rows of the compact ones, number of tiles *)
Definition t_rows_v : Z := Z.min (2 * b) (m - t_i * b) - 1.
Definition t_hh_rows : Z := Z.min b (m - t_i * b).
Definition t_across : bool := negb (t_i =? e_rows - 1).
(** 699-704 (HHManager::computeVW, 509-526) *)
Definition t_compute : mjob (mat K) :=
  MJob [tHH t_i j] [tV j t_i; tT j t_i; tW j t_i] (fun ins outs =>
    match ins, outs with
    | [hh], [v; t; w] =>
        let v' := setup_v b t_rows_v t_nrefls t_hh_rows hh v in
        let t' := compute_t b t_rows_v t_nrefls g hh v' t in
        [v'; t'; compute_w b t_rows_v t_nrefls g v' t' w]
    | _, _ => outs
    end).
(** 706-728 *)
Definition t_apply (je : Z) : mjob (mat K) :=
  if t_across then
    MJob [tV j t_i; tW j t_i] [tW2 j je; tE t_i je; tE (t_i + 1) je] (fun ins outs =>
      match ins, outs with
      | [v; w], [w2; et; eb] =>
          let '(w2', et', eb') := apply_double (e_sz t_i) (e_sz (t_i + 1)) t_nrefls g (tl_sz tc je) v w w2 et eb in [w2'; et'; eb']
      | _, _ => outs end)
  else
    MJob [tV j t_i; tW j t_i] [tW2 j je; tE t_i je] (fun ins outs =>
      match ins, outs with
      | [v; w], [w2; e] => let '(w2', e') := apply_single t_rows_v t_nrefls g (tl_sz tc je) v w w2 e in [w2'; e']
      | _, _ => outs end).
Definition t_step : list (mjob (mat K)) := t_compute :: map t_apply (zrange 0 (tl_n tc)).
End step.

(** 607-735 *)
Definition bt_band_to_tridiag : list (mjob (mat K)) :=
  if (m <=? 0) || (tl_size tc <=? 0) then [] else
  if m <=? (if cplx then 1 else 2) then [] else
  flat_map (fun j => flat_map (t_step j) (zrange 0 (t_steps (j * b)))) (rev (zrange 0 (j_last + 1))).
End kernels.
