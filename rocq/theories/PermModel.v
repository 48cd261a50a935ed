(** * Row and column permutations: permutations/general.h, permutations/general/impl.h (CPU). *)
From Coq Require Import ZArith Lia List Bool.
From Verif Require Import CInt Loop DistModel DistGrid TridiagModel.
Import ListNotations.
Local Open Scope Z_scope.

(** Index2D(coord, x, y): x along C, y along the other coordinate (common/index2d.h:61-69) *)
Definition mk2d (C : coord) (x y : Z) : pair_Z := match C with Row => (x, y) | Col => (y, x) end.
Definition along (C : coord) (p : pair_Z) : Z := match C with Row => fst p | Col => snd p end.

Section model.
Context {T : Type}.
(** a tile: element index -> value; the local tiles of a matrix; a vector of tiles *)
Definition ltile : Type := pair_Z -> T.
Definition lmat : Type := pair_Z -> ltile.
Definition tvec : Type := Z -> ltile.

(** tile::lacpy(region, in_idx, in, out_idx, out), lapack/tile.h:80-98: copies a region *)
Definition lacpy (region in_idx : pair_Z) (tin : ltile) (out_idx : pair_Z) (tout : ltile) : ltile := fun e =>
  let x := fst e - fst out_idx in let y := snd e - snd out_idx in
  if (0 <=? x) && (x <? fst region) && (0 <=? y) && (y <? snd region) then tin (fst in_idx + x, snd in_idx + y) else tout e.

(** select / selectRead over iterate_range2d(begin, end) (util_matrix / matrix.h): the vector of the tiles, in column-major
    order (C12) *)
Definition select_tiles (b e : pair_Z) (m : lmat) : tvec := fun k => m (fst b + k mod (fst e - fst b), snd b + k / (fst e - fst b)).
(** the matrix after the tiles of such a range have been written *)
Definition store_tiles (b e : pair_Z) (m : lmat) (v : tvec) : lmat := fun ij =>
  if (fst b <=? fst ij) && (fst ij <? fst e) && (snd b <=? snd ij) && (snd ij <? snd e)
  then v ((fst ij - fst b) + (snd ij - snd b) * (fst e - fst b)) else m ij.

(** applyPermutationOnCPU, impl.h:96-132; [ocsize k] is in_tiles[k].size().get<OC>() *)
Definition apply_permutation (C : coord) (i_perm : Z) (subm : distribution) (perm_arr : Z -> Z) (ocsize : Z -> Z)
    (in_tiles out_tiles : tvec) : tvec :=
  let perm_from := perm_arr i_perm in let perm_to := i_perm in
  let j_in := ax_local_tile_from_local_element (get C subm) perm_from in
  let j_out := ax_local_tile_from_local_element (get C subm) perm_to in
  let ij_in_tl := mk2d C (ax_tile_element_from_local_element (get C subm) perm_from) 0 in
  let ij_out_tl := mk2d C (ax_tile_element_from_local_element (get C subm) perm_to) 0 in
  fold_left (fun o i =>
    let lin := local_tile_linear_index subm (mk2d C j_in i) in
    let lout := local_tile_linear_index subm (mk2d C j_out i) in
    upd o lout (lacpy (mk2d C 1 (ocsize lin)) ij_in_tl (in_tiles lin) ij_out_tl (o lout)))
    (zrange 0 (ax_local_nr_tiles (get (other C) subm))) out_tiles.

(** a bulk of permutations, in any order; [guard v] is the condition in the body (impl.h:494, 532), v = perm_arr[i_perm] *)
Definition bulk (order : list Z) (guard : Z -> bool) (C : coord) (subm : distribution) (perm_arr : Z -> Z) (ocsize : Z -> Z)
    (in_tiles out_tiles : tvec) : tvec :=
  fold_left (fun o i => if guard (perm_arr i) then apply_permutation C i subm perm_arr ocsize in_tiles o else o) order out_tiles.

(** the tiles of mat[i_begin:i_end][i_begin:i_end] on this rank: impl.h:183-189, 566-569 *)
Definition next2 (d : distribution) (i : Z) : pair_Z :=
  (ax_next_local_tile_from_global_tile (d_row d) i, ax_next_local_tile_from_global_tile (d_col d) i).
Definition sz_loc (d : distribution) (i_begin i_end : Z) : pair_Z :=
  (local_element_distance_from_global_tile (d_row d) i_begin i_end, local_element_distance_from_global_tile (d_col d) i_begin i_end).
(** the size along OC of tile k of the range *)
Definition oc_tile_size (C : coord) (d : distribution) (b e : pair_Z) (k : Z) : Z :=
  ax_local_tile_size_of (get (other C) d) (along (other C) (fst b + k mod (fst e - fst b), snd b + k / (fst e - fst b))).
(** the same for a matrix with local distribution subm *)
Definition oc_tile_size_loc (C : coord) (subm : distribution) (k : Z) : Z :=
  ax_local_tile_size_of (get (other C) subm) (along (other C) (k mod ax_local_nr_tiles (d_row subm), k / ax_local_nr_tiles (d_row subm))).

(** Permutations<B, CPU, T, C>::call (local), impl.h:167-231. [perms] is the array that starts at tile
    idx_begin.get<C>() of the index; [order]: the order in which the bulk runs. *)
Definition permute_local (C : coord) (d : distribution) (i_begin i_end : Z) (order : list Z) (perms : Z -> Z) (mat_in mat_out : lmat) : res lmat :=
  if i_begin =? i_end then Ok mat_out else
  subm <- dist_ctor_local (sz_loc d i_begin i_end) (ax_tile (d_row d), ax_tile (d_col d)) (0, 0) ;;
  if isEmpty2 (sz_loc d i_begin i_end) then Ok mat_out else
  let b := next2 d i_begin in let e := next2 d i_end in
  Ok (store_tiles b e mat_out (bulk order (fun _ => true) C subm perms (oc_tile_size C d b e) (select_tiles b e mat_in) (select_tiles b e mat_out))).

(** ** Distributed *)
(** std::sort of out[lo..hi) by key (the keys are distinct, so the result is unique): modelled by insertion sort *)
Fixpoint insert_by (key : Z -> Z) (x : Z) (l : list Z) : list Z :=
  match l with [] => [x] | y :: l' => if key x <? key y then x :: l else y :: insert_by key x l' end.
Definition sort_list (key : Z -> Z) (l : list Z) : list Z := fold_left (fun acc x => insert_by key x acc) l [].
Definition sort_range (key : Z -> Z) (lo hi : Z) (o : Z -> Z) : Z -> Z := fun i =>
  if (lo <=? i) && (i <? hi) then nth (Z.to_nat (i - lo)) (sort_list key (tab lo hi o)) 0 else o i.
(** one iteration of the loop over ranks of initPackingIndex, impl.h:354-374 *)
Definition pack_scan (backward : bool) (a : axis) (offset_sub nperms : Z) (loc2sub : Z -> Z) (displ rank : Z) (out : Z -> Z) : Z * (Z -> Z) :=
  fold_left (fun s l => let '(c, o) := s in
    if ax_rank_global_element a (offset_sub + loc2sub l) =? rank
    then (c + 1, if backward then upd o (displ + c) l else upd o l (displ + c)) else s)
    (zrange 0 nperms) (0, out).
(** initPackingIndex, impl.h:343-391: (counts, packing_index) *)
Definition init_packing_index (backward : bool) (nranks : Z) (a : axis) (offset_sub nperms : Z) (loc2sub out : Z -> Z) : (Z -> Z) * (Z -> Z) :=
  let '(_, counts, o) := fold_left (fun s rank => let '(displ, counts, o) := s in
      let '(c, o1) := pack_scan backward a offset_sub nperms loc2sub displ rank o in
      let o2 := if backward then sort_range loc2sub displ (displ + c) o1 else o1 in
      (displ + c, upd counts rank c, o2)) (zrange 0 nranks) (0, (fun _ => 0), out) in
  (counts, o).
(** copyLocalPartsFromGlobalIndex, impl.h:396-408: tiles of nb elements; [glob] is the index that starts at tile i_begin *)
Definition copy_local_parts (a : axis) (i_begin i_loc_begin nperms : Z) (glob loc : Z -> Z) : Z -> Z :=
  fold_left (fun o i => fold_left (fun o e =>
      upd o (i * ax_tile a + e) (glob ((ax_global_tile_from_local_tile a (i_loc_begin + i) - i_begin) * ax_tile a + e)))
    (zrange 0 (Z.min (ax_tile a) (nperms - i * ax_tile a))) o) (zrange 0 (ceilDiv nperms (ax_tile a))) loc.
(** std::exclusive_scan / std::accumulate *)
Definition displ (counts : Z -> Z) (rank : Z) : Z := fold_left Z.add (tab 0 rank counts) 0.

(** mat_send, mat_recv: packed column-major, so the tiles and the elements are two views of the same memory (C15, C16) *)
Definition buf : Type := pair_Z -> T.
Definition tiles_of_buf (subm : distribution) (b : buf) : tvec := fun k e =>
  let nr := ax_local_nr_tiles (d_row subm) in
  b (ax_local_element_from_local_tile_and_tile_element (d_row subm) (k mod nr) (fst e),
     ax_local_element_from_local_tile_and_tile_element (d_col subm) (k / nr) (snd e)).
Definition buf_of_tiles (subm : distribution) (v : tvec) : buf := fun ij =>
  v (local_tile_linear_index subm (ax_local_tile_from_local_element (d_row subm) (fst ij), ax_local_tile_from_local_element (d_col subm) (snd ij)))
    (ax_tile_element_from_local_element (d_row subm) (fst ij), ax_tile_element_from_local_element (d_col subm) (snd ij)).

(** what a rank has prepared before the communication *)
Record prepared := Prep { pr_subm : distribution; pr_send_counts : Z -> Z; pr_recv_counts : Z -> Z; pr_unpack : Z -> Z; pr_send : buf; pr_vec : Z }.

(** permuteOnCPU, impl.h:545-619, up to applyPackingIndex; Ok None: nothing to do on this rank.
    [perms] is the index from tile i_begin on (submatrix indices); [junk]: what uninitialised memory holds. *)
Definition permute_prepare (C : coord) (d : distribution) (i_begin i_end : Z) (order : list Z) (perms : Z -> Z) (junk : Z -> Z) (junkbuf : buf)
    (mat_in : lmat) : res (option prepared) :=
  if i_begin =? i_end then Ok None else
  let a := get C d in
  let nranks := ax_grid a in
  let offset_sub := ax_global_element_from_global_tile_and_tile_element a i_begin 0 in
  let b := next2 d i_begin in let e := next2 d i_end in
  let sz := sz_loc d i_begin i_end in
  if isEmpty2 sz then Ok None else
  let inverse_perms := invert_index (problem_size a i_begin i_end) perms junk in
  subm <- dist_ctor_local sz (ax_tile (d_row d), ax_tile (d_col d)) (0, 0) ;;
  let nvecs := along C sz in
  let l2g := copy_local_parts a i_begin (along C b) nvecs perms junk in
  let '(recv_counts, unpacking) := init_packing_index false nranks a offset_sub nvecs l2g junk in
  let l2g' := copy_local_parts a i_begin (along C b) nvecs inverse_perms l2g in
  let '(send_counts, packing) := init_packing_index true nranks a offset_sub nvecs l2g' junk in
  let send := buf_of_tiles subm (bulk order (fun _ => true) C subm packing (oc_tile_size C d b e) (select_tiles b e mat_in) (tiles_of_buf subm junkbuf)) in
  Ok (Some (Prep subm send_counts recv_counts unpacking send (along (other C) sz))).

(** all2allData, impl.h:262-335: what rank q sends to rank r (number of vectors, their length, content), and what r
    expects from q. Tag 0, one message for each ordered pair. *)
Definition message : Type := (Z * Z * (Z -> Z -> T))%type.
Definition sent (C : coord) (q r : Z) (p : option prepared) : option message :=
  match p with
  | None => None
  | Some x => if q =? r then None else if pr_send_counts x r =? 0 then None
      else Some (pr_send_counts x r, pr_vec x, fun j y => pr_send x (mk2d C (displ (pr_send_counts x) r + j) y))
  end.
Definition expected (q r : Z) (p : option prepared) : option (Z * Z) :=
  match p with
  | None => None
  | Some x => if q =? r then None else if pr_recv_counts x q =? 0 then None else Some (pr_recv_counts x q, pr_vec x)
  end.
(** every send has its receive with the same shape and conversely; otherwise the call does not complete, or MPI
    reports a truncated message *)
Definition matches (m : option message) (x : option (Z * Z)) : bool :=
  match m, x with
  | None, None => true
  | Some (n, v, _), Some (n', v') => (n =? n') && (v =? v')
  | _, _ => false
  end.
(** mat_recv of rank r after the communication *)
Definition received (C : coord) (nranks r : Z) (p : prepared) (msgs : Z -> option message) (junkbuf : buf) : buf :=
  fold_left (fun b q => match msgs q with
    | Some (n, v, f) => fun ij => let j := along C ij - displ (pr_recv_counts p) q in let y := along (other C) ij in
         if (0 <=? j) && (j <? n) && (0 <=? y) && (y <? v) then f j y else b ij
    | None => b end) (zrange 0 nranks) junkbuf.

(** unpackLocalOnCPU, impl.h:444-502 *)
Definition unpack_local (C : coord) (rank : Z) (order : list Z) (p : prepared) (out : tvec) : tvec :=
  let a := displ (pr_send_counts p) rank in
  let b := a + pr_send_counts p rank in
  let a_r := displ (pr_recv_counts p) rank in
  bulk order (fun v => (a <=? v) && (v <? b)) C (pr_subm p) (fun i => pr_unpack p i + (a - a_r)) (oc_tile_size_loc C (pr_subm p))
    (tiles_of_buf (pr_subm p) (pr_send p)) out.
(** unpackOthersOnCPU, impl.h:504-543 *)
Definition unpack_others (C : coord) (rank : Z) (order : list Z) (p : prepared) (recv : buf) (out : tvec) : tvec :=
  let a := displ (pr_recv_counts p) rank in
  let b := a + pr_recv_counts p rank in
  bulk order (fun v => (v <? a) || (b <=? v)) C (pr_subm p) (pr_unpack p) (oc_tile_size_loc C (pr_subm p))
    (tiles_of_buf (pr_subm p) recv) out.

(** The distributed call on the ranks 0 .. nranks-1 of one row (C = Col) or column (C = Row) communicator: [d r] is the
    distribution object of rank r, [mat_in r], [mat_out r] its local tiles. None: some message has no counterpart. *)
Definition permute_dist (C : coord) (nranks : Z) (d : Z -> distribution) (i_begin i_end : Z) (order1 order2 order3 : Z -> list Z) (perms : Z -> Z)
    (junk : Z -> Z) (junkbuf : buf) (mat_in mat_out : Z -> lmat) : option (Z -> lmat) :=
  let prep r := match permute_prepare C (d r) i_begin i_end (order1 r) perms junk junkbuf (mat_in r) with Ok p => Some p | _ => None end in
  if forallb (fun r => match prep r with Some _ => true | None => false end) (zrange 0 nranks) then
    let p r := match prep r with Some x => x | None => None end in
    if forallb (fun q => forallb (fun r => matches (sent C q r (p q)) (expected q r (p r))) (zrange 0 nranks)) (zrange 0 nranks) then
      Some (fun r => match p r with
        | None => mat_out r
        | Some x =>
          let b := next2 (d r) i_begin in let e := next2 (d r) i_end in
          let recv := received C nranks r x (fun q => sent C q r (p q)) junkbuf in
          store_tiles b e (mat_out r) (unpack_others C r (order3 r) x recv (unpack_local C r (order2 r) x (select_tiles b e (mat_out r))))
        end)
    else None
  else None.
End model.
