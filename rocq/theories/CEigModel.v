(** * Model of the argument handling of the C and ScaLAPACK-like interfaces of the eigensolvers: src/c_api/eigensolver. *)
From Coq Require Import ZArith List Bool.
From Verif Require Import CInt MemModel.
Import ListNotations.
Local Open Scope Z_scope.

(** Assertions of the C++ eigensolver on the grid about blocks and range, eigensolver/eigensolver.h:153-168 (sizes: m x m for both); the local one is equal (39-54) *)
Definition solver_checks (a z : dlaf_desc) (ib ie : Z) : res (Z * Z) :=
  do dlaf_assert (ds_m a =? ds_n a) ;;;
  do dlaf_assert (ds_mb a =? ds_nb a) ;;;
  do dlaf_assert ((ds_m z =? ds_m a) && (ds_n z =? ds_n a)) ;;;
  do dlaf_assert (ds_mb z =? ds_nb z) ;;;
  do dlaf_assert ((ds_mb z =? ds_mb a) && (ds_nb z =? ds_nb a)) ;;;
  do dlaf_assert (ib =? 0) ;;;
  do dlaf_assert (ib <=? ie) ;;;
  do dlaf_assert (ie <=? ds_m a) ;;;
  Ok (ib, ie).
(** hermitian_eigensolver of the C API, c_api/eigensolver/eigensolver.h:30-72; the range [ib, ie) that is computed. Construction of the matrices: make_layout (C16), mirrors: C60 *)
Definition c_eigensolver (a z : dlaf_desc) (ib ie : Z) : res (Z * Z) :=
  do dlaf_assert (ds_i a =? 0) ;;;
  do dlaf_assert (ds_j a =? 0) ;;;
  do dlaf_assert (ds_i z =? 0) ;;;
  do dlaf_assert (ds_j z =? 0) ;;;
  solver_checks a z ib ie.
(** dlaf_{symmetric,hermitian}_eigensolver_x, eigensolver.cpp:19-24 ff. (the whole spectrum) and ..._partial_spectrum_x *)
Definition c_eigensolver_full (a z : dlaf_desc) : res (Z * Z) := c_eigensolver a z 0 (ds_m a).
(** pxheevd, c_api/eigensolver/eigensolver.h:76-104. desc[0]: type, desc[1]: context *)
Definition pxheevd (m ia ja : Z) (desca : list Z) (iz jz : Z) (descz : list Z) (il iu : Z) : res (Z * Z) :=
  match desca, descz with
  | ta :: ca :: _, tz :: cz :: _ =>
    do dlaf_assert (ta =? 1) ;;;
    do dlaf_assert (tz =? 1) ;;;
    do dlaf_assert (ca =? cz) ;;;
    do dlaf_assert (ia =? 1) ;;;
    do dlaf_assert (ja =? 1) ;;;
    do dlaf_assert (iz =? 1) ;;;
    do dlaf_assert (jz =? 1) ;;;
    do dlaf_assert (if 0 <? m then 1 <=? il else il =? 1) ;;;
    do dlaf_assert (if 0 <? m then iu <=? m else iu =? 0) ;;;
    do dlaf_assert (if 0 <? m then il <=? iu else true) ;;;
    a <- make_dlaf_descriptor m m ia ja desca ;;
    z <- make_dlaf_descriptor m m iz jz descz ;;
    b <- sub64 il 1 ;;
    c_eigensolver a z b iu
  | _, _ => UB
  end.

(** Assertions of the C++ generalized eigensolver on the grid, eigensolver/gen_eigensolver.h:103-127 (order as in the code; one tile per block and the grid hold by construction; eigenvalues: created
    with the size and block of z). With and without factorization: the same function *)
Definition gen_solver_checks (a b z : dlaf_desc) (ib ie : Z) : res (Z * Z) :=
  do dlaf_assert (ds_m a =? ds_n a) ;;;
  do dlaf_assert (ds_mb a =? ds_nb a) ;;;
  do dlaf_assert (ds_m b =? ds_n b) ;;;
  do dlaf_assert (ds_mb b =? ds_nb b) ;;;
  do dlaf_assert ((ds_m a =? ds_m b) && (ds_n a =? ds_n b)) ;;;
  do dlaf_assert ((ds_mb a =? ds_mb b) && (ds_nb a =? ds_nb b)) ;;;
  do dlaf_assert ((ds_m z =? ds_m a) && (ds_n z =? ds_n a)) ;;;
  do dlaf_assert (ds_m z =? ds_n z) ;;;
  do dlaf_assert (ds_mb z =? ds_nb z) ;;;
  do dlaf_assert ((ds_mb z =? ds_mb a) && (ds_nb z =? ds_nb a)) ;;;
  do dlaf_assert (ib =? 0) ;;;
  do dlaf_assert (ib <=? ie) ;;;
  do dlaf_assert (ie <=? ds_m a) ;;;
  Ok (ib, ie).
(** hermitian_generalized_eigensolver of the C API, c_api/eigensolver/gen_eigensolver.h:31-84 *)
Definition c_gen_eigensolver (a b z : dlaf_desc) (ib ie : Z) : res (Z * Z) :=
  do dlaf_assert (ds_i a =? 0) ;;;
  do dlaf_assert (ds_j a =? 0) ;;;
  do dlaf_assert (ds_i b =? 0) ;;;
  do dlaf_assert (ds_j b =? 0) ;;;
  do dlaf_assert (ds_i z =? 0) ;;;
  do dlaf_assert (ds_j z =? 0) ;;;
  gen_solver_checks a b z ib ie.
(** pxhegvd and pxhegvd_factorized, c_api/eigensolver/gen_eigensolver.h:109-165 *)
Definition pxhegvd (m ia ja : Z) (desca : list Z) (ib jb : Z) (descb : list Z) (iz jz : Z) (descz : list Z) (il iu : Z) : res (Z * Z) :=
  match desca, descb, descz with
  | ta :: ca :: _, tb :: cb :: _, tz :: cz :: _ =>
    do dlaf_assert (ta =? 1) ;;;
    do dlaf_assert (tb =? 1) ;;;
    do dlaf_assert (tz =? 1) ;;;
    do dlaf_assert (ca =? cb) ;;;
    do dlaf_assert (ca =? cz) ;;;
    do dlaf_assert (ia =? 1) ;;;
    do dlaf_assert (ja =? 1) ;;;
    do dlaf_assert (ib =? 1) ;;;
    do dlaf_assert (jb =? 1) ;;;
    do dlaf_assert (iz =? 1) ;;;
    do dlaf_assert (jz =? 1) ;;;
    do dlaf_assert (if 0 <? m then 1 <=? il else il =? 1) ;;;
    do dlaf_assert (if 0 <? m then iu <=? m else iu =? 0) ;;;
    do dlaf_assert (if 0 <? m then il <=? iu else true) ;;;
    a <- make_dlaf_descriptor m m ia ja desca ;;
    b <- make_dlaf_descriptor m m ib jb descb ;;
    z <- make_dlaf_descriptor m m iz jz descz ;;
    f <- sub64 il 1 ;;
    c_gen_eigensolver a b z f iu
  | _, _, _ => UB
  end.
