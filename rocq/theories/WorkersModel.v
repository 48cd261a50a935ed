(** * Model of the choice of the number of workers of the multi-threaded steps. Arithmetic of std::size_t wraps modulo 2^64. *)
From Coq Require Import ZArith Bool.
From Verif Require Import CInt.
Local Open Scope Z_scope.

(** std::size_t operations; division by zero is undefined behaviour *)
Definition u64 (z : Z) : Z := z mod 2 ^ 64.
Definition u_div (a b : Z) : res Z := if b =? 0 then UB else Ok (a / b).
(** util::ceilDiv<std::size_t>, util_math.h:82-86 *)
Definition u_ceil_div (num den : Z) : res Z := u_div (u64 (u64 (num + den) - 1)) den.
(** std::clamp: undefined behaviour if hi < lo *)
Definition clamp (v lo hi : Z) : res Z := if hi <? lo then UB else Ok (if v <? lo then lo else if hi <? v then hi else v).

(** get_red2band_panel_num_workers (eigensolver/internal/get_red2band_panel_nworkers.h:25-33) and get_tfactor_num_workers<MC>
    (factorization/qr/internal/get_tfactor_num_workers.h:22-32). threads: size of the default thread pool; tune: the tune parameter *)
Definition leave_one_workers (threads tune : Z) : res Z := clamp tune 1 (Z.max 1 (u64 (threads - 1))).
(** get_tfactor_num_workers<GPU>, get_tfactor_num_workers.h:33-35 *)
Definition tfactor_streams (tune : Z) : Z := Z.max 1 tune.
(** get_tridiag_rank1_num_workers (eigensolver/internal/get_tridiag_rank1_nworkers.h:22-30) *)
Definition rank1_workers (threads tune : Z) : res Z := clamp tune 1 (Z.max 1 threads).
(** panel of the reduction to band, eigensolver/reduction_to_band/impl.h:269-275 and 596-602; minwork is 1
    (get_red2band_panel_nworkers.h:21-23) *)
Definition panel_workers (threads tune nrtiles : Z) : res Z :=
  available <- leave_one_workers threads tune ;;
  ideal <- u_ceil_div nrtiles 1 ;;
  clamp ideal 1 available.
(** rank-one problem: tridiag_solver/merge.h:813-818 (work: tiles, unit: 2), 1345-1354 (work: local rows times k_lc, unit: twice the size of a tile) *)
Definition rank1_threads (threads tune work unit : Z) : res Z :=
  available <- rank1_workers threads tune ;;
  ideal <- u_ceil_div work unit ;;
  clamp ideal 1 available.
(** split_tfactor_work, factorization/qr/t_factor_impl.h:54-71: (nworkers, batch_size); available: get_tfactor_num_workers of the backend *)
Definition split_tfactor_work (available nrtiles : Z) : res (Z * Z) :=
  ideal <- u_ceil_div nrtiles 1 ;;
  c <- clamp ideal 1 available ;;
  batch_size <- u_ceil_div nrtiles c ;;
  w <- u_ceil_div nrtiles batch_size ;;
  Ok (Z.max 1 w, batch_size).
(** number of workspace tiles the callers allocate: reduction_to_band/impl.h:1037-1038, 1249-1250, bt_reduction_to_band/impl.h:168-170, 296-297 *)
Definition nworkspaces (available : Z) : Z := Z.max 0 (u64 (available - 1)).
(** the part of worker w: t_factor_impl.h:130-132, reduction_to_band/impl.h:285-287, merge.h:835-837 (std::min) *)
Definition part_begin (batch w : Z) : Z := u64 (w * batch).
Definition part_end (batch w n : Z) : Z := Z.min (u64 (u64 (w * batch) + batch)) n.
