(** * C API: grid contexts, descriptors, initialisation flag.

    src/c_api/grid.cpp, src/c_api/utils.cpp, src/c_api/init.cpp.
    The global [std::unordered_map<int, CommunicatorGrid> dlaf_grids] is an association list with distinct
    keys.  A CommunicatorGrid is represented by an abstract value [G] (in the theorems: the identity of
    the call that created it together with its arguments). *)
From Coq Require Import ZArith Bool List.
From Verif Require Import CInt Loop DistModel IndexModel.
Import ListNotations.
Open Scope Z_scope.

Section Grids.
Context {G : Type}.

Definition grids := list (Z * G).

Fixpoint find (k : Z) (m : grids) : option G :=
  match m with [] => None | (k', g) :: r => if k =? k' then Some g else find k r end.

(** std::unordered_map::try_emplace: does nothing when the key is present. *)
Definition try_emplace (k : Z) (g : G) (m : grids) : grids :=
  match find k m with Some _ => m | None => (k, g) :: m end.
(** std::unordered_map::erase *)
Definition erase (k : Z) (m : grids) : grids := filter (fun e => negb (fst e =? k)) m.

(** dlaf_create_grid, grid.cpp:28-41: context = INT_MAX - static_cast<int>(size), try_emplace, return.
    Process-local: the barrier is omitted. *)
Definition dlaf_create_grid (g : G) (m : grids) : Z * grids :=
  let dlaf_context := i32_max - wrap32 (Z.of_nat (length m)) in
  (dlaf_context, try_emplace dlaf_context g m).

(** dlaf_free_grid, grid.cpp:43-45 *)
Definition dlaf_free_grid (ctxt : Z) (m : grids) : grids := erase ctxt m.
(** dlaf_free_all_grids, grid.cpp:47-49 *)
Definition dlaf_free_all_grids (m : grids) : grids := [].
(** dlaf_create_grid_from_blacs, grid.cpp:77-96; [g] is the grid built from the BLACS grid. *)
Definition dlaf_create_grid_from_blacs (blacs_ctxt : Z) (g : G) (m : grids) : grids :=
  try_emplace blacs_ctxt g m.
(** grid_from_context, utils.cpp:56-69: std::terminate when the context is unknown *)
Definition grid_from_context (ctxt : Z) (m : grids) : res G :=
  match find ctxt m with Some g => Ok g | None => Abort end.
End Grids.
Arguments grids G : clear implicits.

(** char2order, utils.cpp:51-54, the character given by its ASCII code ('C' = 67, 'c' = 99). *)
Definition char2order (c : Z) : ordering :=
  if (c =? 67) || (c =? 99) then ColumnMajor else RowMajor.

(** grid_ordering, grid.cpp:51-75, all [n] processes of the communicator together; [pos r] is the
    (myprow, mypcol) passed by rank [r].  MPI_Allreduce with MPI_LAND is the conjunction over all ranks.
    Aborts (exit(-1)) when neither holds. *)
Definition grid_ordering (n nprow npcol : Z) (pos : Z -> pair_Z) : res Z :=
  let row_major := forallb (fun rank => rank =? fst (pos rank) * npcol + snd (pos rank)) (zrange 0 n) in
  let col_major := forallb (fun rank => rank =? snd (pos rank) * nprow + fst (pos rank)) (zrange 0 n) in
  if negb row_major && negb col_major then Abort
  else Ok (if col_major then 67 else 82).

(** DLAF_descriptor, include/dlaf_c/desc.h *)
Record dlaf_desc := DlafDesc {
  d_m : Z; d_n : Z; d_mb : Z; d_nb : Z; d_isrc : Z; d_jsrc : Z; d_i : Z; d_j : Z; d_ld : Z }.

(** make_dlaf_descriptor, utils.cpp:26-34; [desc k] is desc[k] of the ScaLAPACK descriptor
    (dtype, ctxt, m, n, mb, nb, rsrc, csrc, lld). *)
Definition make_dlaf_descriptor (m n i j : Z) (desc : Z -> Z) : res dlaf_desc :=
  do dlaf_assert (i =? 1) ;;;
  do dlaf_assert (j =? 1) ;;;
  Ok (DlafDesc m n (desc 4) (desc 5) (desc 6) (desc 7) (i - 1) (j - 1) (desc 8)).

(** dlaf_initialize / dlaf_finalize, src/c_api/init.cpp:21-50.  The state is the flag and the numbers of
    calls made to dlaf::initialize and dlaf::finalize (which abort when out of turn, src/init.cpp:367,419). *)
Record capi_state := CApi { initialized : bool; n_init : Z; n_fini : Z }.
Definition dlaf_initialize (s : capi_state) : capi_state :=
  if negb (initialized s) then CApi true (n_init s + 1) (n_fini s) else s.
Definition dlaf_finalize (s : capi_state) : capi_state :=
  if initialized s then CApi false (n_init s) (n_fini s + 1) else s.
