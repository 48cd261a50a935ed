(** * Distributed triangular solver and triangular multiplication.
    solver/triangular/impl.h:480-1205, multiplication/triangular/impl.h:400-721 and their dispatchers.
    The variants Left and Right are the same code with rows and columns exchanged; the variants of one side differ by the
    direction of their loops. The definitions below are written once, for the coordinate rc along which the panel of mat_a
    runs (Row for Left, Col for Right) with the loop direction as a parameter; each function of the library instantiates them. *)
From Coq Require Import ZArith Lia List Bool.
From Verif Require Import CInt Loop StarField DenseSpec DenseJobs TileJobs DistModel DistMachine DistGrid PanelModel.
Import ListNotations.
Local Open Scope Z_scope.

(** for (l = lo; l < hi; ++l) or for (l = hi - 1; l >= lo; --l) *)
Definition dloop (up : bool) (lo hi : Z) : list Z := if up then zrange lo hi else rev (zrange lo hi).

Section model.
Context {K : starfield} (kn : kernels K).
Variables P Q : Z.
(** axes of the distributions of mat_a and of mat_b *)
Variables DA DB : coord -> Z -> axis.
Variable al : F K.
Notation co := (co Q).
Definition rcs (s : side) : coord := match s with Left => Row | Right => Col end.
(** tile of mat_a, mat_b on rank r with index i along rc and index j along the other coordinate *)
Definition AT (s : side) (r i j : Z) : tid := match s with Left => Tid r 0 i j | Right => Tid r 0 j i end.
Definition BT (s : side) (r i j : Z) : tid := match s with Left => Tid r 1 i j | Right => Tid r 1 j i end.
(** a_panels.nextResource(), b_panels.nextResource(): two workspaces each, used in turn (C13) *)
Definition idA (k : Z) : Z := 2 + k mod 2.
Definition idB (k : Z) : Z := 4 + k mod 2.
(** mat_a.nrTiles(): mat_a is square *)
Definition nta (r : Z) : Z := ax_nr_tiles (ax Q DA r Row).
Definition lnt (D : coord -> Z -> axis) (r : Z) (c : coord) : Z := ax_local_nr_tiles (ax Q D r c).
(** sizes of tiles; the kernels take them from their tiles (setWidth and setHeight give the panel tiles the size of the
    tiles of the matrix) *)
Definition szt (D : coord -> Z -> axis) (r : Z) (c : coord) (k : Z) : Z := ax_global_tile_size_of (ax Q D r c) k.
(** trsmBPanelTile, trmmBPanelTile, gemmTrailingMatrixTile of the namespaces triangular_lln ... triangular_rut:
    solver/triangular/impl.h:40-233, multiplication/triangular/impl.h:37-198. m, n: sizes along rc and along the other
    coordinate. *)
Definition j_trsm s u o d m n (a b : tid) : tjob (mat K) := match s with
  | Left => jtrsm kn Left u o d m n al a b | Right => jtrsm kn Right u o d n m al a b end.
Definition j_trmm s u o d m n (a b : tid) : tjob (mat K) := match s with
  | Left => jtrmm kn Left u o d m n al a b | Right => jtrmm kn Right u o d n m al a b end.
Definition j_gemm s o (c : F K) m n k (a b x : tid) : tjob (mat K) := match s with
  | Left => jgemm kn o NoTrans m n k c a b f1 x | Right => jgemm kn NoTrans o n m k c b a f1 x end.

(** The panel of mat_a with the links to column (row) k.
    up (LLN, LLT, RUN, RUT): setRangeStart(k), links for the local tiles from nextLocalTileFromGlobalTile(k) to localNrTiles (given: e);
    otherwise (LUN, LUT, RLN, RLT): links for the local tiles before nextLocalTileFromGlobalTile(k + 1), last first.
    (for instance solver/triangular/impl.h:507-533 and 688-713) *)
Definition a_links (s : side) (up : bool) (e : Z) (r k : Z) : panel :=
  let rc := rcs s in let oc := other rc in
  let p := fresh_panel (idA k) (if up then k else 0) (nta r) in
  if t_own Q DA r oc k =? co oc r then
    fold_left (fun p l => set_tile p (t_gl Q DA r rc l) (AT s r (t_gl Q DA r rc l) (t_gl Q DA r oc (t_nx Q DA r oc k))))
      (if up then dloop true (t_nx Q DA r rc k) e else dloop false 0 (t_nx Q DA r rc (k + 1))) p
  else p.
(** The panel of mat_b with the links to the local tiles of row (column) k, in the ranks that own it:
    for instance solver/triangular/impl.h:535-548, loop in the direction jup *)
Definition b_links (s : side) (jup : bool) (r k : Z) : panel :=
  let rc := rcs s in let oc := other rc in
  let p := fresh_panel (idB k) 0 (ax_nr_tiles (ax Q DB r oc)) in
  if t_own Q DA r rc k =? co rc r then
    fold_left (fun p l => set_tile p (t_gl Q DB r oc l) (BT s r (t_gl Q DB r rc (t_loc Q DB r rc k)) (t_gl Q DB r oc l))) (dloop jup 0 (lnt DB r oc)) p
  else p.
(** the tasks on row (column) k of mat_b, in the ranks that own it *)
Definition row_jobs (s : side) (jup : bool) (job : Z -> Z -> tid -> tid -> tjob (mat K)) (ap : panel) (r k : Z) : list (tjob (mat K)) :=
  let rc := rcs s in let oc := other rc in let kl := t_loc Q DB r rc k in
  if t_own Q DA r rc k =? co rc r then
    flat_map (fun l => let j := t_gl Q DB r oc l in
      [job (szt DB r rc (t_gl Q DB r rc kl)) (szt DB r oc j) (p_tile r ap (t_gl Q DA r rc kl)) (BT s r (t_gl Q DB r rc kl) j)]) (dloop jup 0 (lnt DB r oc))
  else [].
(** the updates of the tiles with local indices in ls, factor c *)
Definition upd_jobs (s : side) (jup : bool) (c : F K) (ls : list Z) (ap bp : panel) (r k : Z) : list (tjob (mat K)) :=
  let rc := rcs s in let oc := other rc in
  flat_map (fun li => flat_map (fun lj => let i := t_gl Q DB r rc li in let j := t_gl Q DB r oc lj in
    [j_gemm s NoTrans c (szt DB r rc i) (szt DB r oc j) (szt DA r oc k) (p_tile r ap (t_gl Q DA r rc li)) (p_tile r bp j) (BT s r i j)])
    (dloop jup 0 (lnt DB r oc))) ls.

(** ** Solver, op = NoTrans *)
(** one iteration of LLN (solver/triangular/impl.h:507-573), LUN (688-753), RLN (869-934), RUN (1050-1116):
    beta = -1 / alpha; division by zero gives an arbitrary value of the field *)
Definition dbeta : F K := fmul (fopp f1) (finv al).
Definition solve_step_N (s : side) (u : uplo) (d : diag) (up : bool) (r k : Z) : list (act (mat K)) :=
  let rc := rcs s in let oc := other rc in
  let ap := a_links s up (lnt DA r rc) r k in
  let bp := b_links s up r k in
  panel_broadcast P Q DA rc r (t_own Q DA r oc k) ap ++
  map ALoc (row_jobs s up (j_trsm s u NoTrans d) ap r k) ++
  if k =? (if up then nta r - 1 else 0) then [] else
  panel_broadcast P Q DB oc r (t_own Q DA r rc k) bp ++
  map ALoc (upd_jobs s up dbeta (if up then dloop true (t_nx Q DB r rc (k + 1)) (lnt DA r rc) else dloop false 0 (t_nx Q DB r rc k)) ap bp r k).
(** ** Solver, op = Trans or ConjTrans *)
(** set0(b_panel) (matrix/util_matrix or set0.h), the accumulation into b_panel: LLT (solver/triangular/impl.h:624-630), LUT (802-809),
    RLT (983-990), RUT (1166-1172). iterate_range2d is column major (C12). *)
Definition acc_jobs (s : side) (o : op) (up : bool) (ap bp : panel) (r k : Z) : list (tjob (mat K)) :=
  let rc := rcs s in let oc := other rc in
  let c := fmul (match s with Left => f1 | Right => fopp f1 end) (finv al) in
  let ls := if up then dloop true (t_nx Q DB r rc (k + 1)) (lnt DB r rc) else dloop true 0 (t_nx Q DB r rc k) in
  let job li lj := let i := t_gl Q DB r rc li in let j := t_gl Q DB r oc lj in
    j_gemm s o c (szt DB r rc k) (szt DB r oc j) (szt DA r rc i) (p_tile r ap (t_gl Q DA r rc li)) (BT s r i j) (p_int r bp j) in
  map (fun lj => jset0 (p_int r bp (t_gl Q DB r oc lj))) (dloop true 0 (lnt DB r oc)) ++
  match s with
  | Left => flat_map (fun lj => map (fun li => job li lj) ls) (dloop true 0 (lnt DB r oc))
  | Right => flat_map (fun li => map (fun lj => job li lj) (dloop true 0 (lnt DB r oc))) ls
  end.
(** the reduction of b_panel: LLT 632-643, LUT 811-822, RLT 992-1003, RUT 1174-1185 *)
Definition reduce_acts (s : side) (bp : panel) (r k : Z) : list (act (mat K)) :=
  let rc := rcs s in let oc := other rc in
  if gs P Q rc =? 1 then [] else
  flat_map (fun l => let t := p_int r bp (t_gl Q DB r oc l) in let c := cm oc (co oc r) in let root := mk Q oc (co oc r) (t_own Q DA r rc k) in
    [ACom (if co rc r =? t_own Q DA r rc k then CAct c (SReduce root) (Some t) (Some t) (members P Q c) (fun vs _ => fun i j => fold_right (fun (A : mat K) s => fadd (A i j) s) f0 vs)
           else CAct c (SReduce root) (Some t) None [] (fun _ v => v))])
    (zrange (t_nx Q DB r oc 0) (t_nx Q DB r oc (p_hi bp))).
(** the solution of row (column) k: LLT 645-657 (index kk_offset), LUT 824-838 (bt_offset), RLT 1005-1019 (bt_offset), RUT 1187-1199 (kk_offset) *)
Definition fin_jobs (s : side) (u : uplo) (o : op) (d : diag) (up : bool) (ap bp : panel) (r k : Z) : list (tjob (mat K)) :=
  let rc := rcs s in let oc := other rc in
  let kl := if up then t_nx Q DA r rc k else t_nx Q DB r rc k in
  if co rc r =? t_own Q DA r rc k then
    flat_map (fun l => let j := t_gl Q DB r oc l in let b := BT s r (t_gl Q DB r rc kl) j in
      [jadd (match s with Left => fopp f1 | Right => f1 end) (p_int r bp j) b;
       j_trsm s u o d (szt DB r rc (t_gl Q DB r rc kl)) (szt DB r oc j) (p_tile r ap (t_gl Q DA r rc kl)) b]) (dloop up 0 (lnt DB r oc))
  else [].
Definition solve_step_T (s : side) (u : uplo) (o : op) (d : diag) (up : bool) (e : Z) (r k : Z) : list (act (mat K)) :=
  let rc := rcs s in let oc := other rc in
  let ap := a_links s up e r k in
  let bp := fresh_panel (idB k) 0 (ax_nr_tiles (ax Q DB r oc)) in
  panel_broadcast P Q DA rc r (t_own Q DA r oc k) ap ++
  map ALoc (acc_jobs s o up ap bp r k) ++ reduce_acts s bp r k ++ map ALoc (fin_jobs s u o d up ap bp r k).

(** ** The functions of the library *)
(** if (mat_b.size().isEmpty()) return; *)
Definition b_empty (r : Z) : bool := (ax_size (ax Q DB r Row) =? 0) || (ax_size (ax Q DB r Col) =? 0).
Definition unless_empty (r : Z) (l : list (act (mat K))) : list (act (mat K)) := if b_empty r then [] else l.
(** solver/triangular/impl.h:480-574 *)
Definition dsolve_LLN d r := unless_empty r (flat_map (solve_step_N Left Lower d true r) (dloop true 0 (nta r))).
(** 576-662 *)
Definition dsolve_LLT o d r := unless_empty r (flat_map (solve_step_T Left Lower o d true (lnt DA r Row) r) (dloop false 0 (nta r))).
(** 664-754 *)
Definition dsolve_LUN d r := unless_empty r (flat_map (solve_step_N Left Upper d false r) (dloop false 0 (nta r))).
(** 756-843 *)
Definition dsolve_LUT o d r := unless_empty r (flat_map (solve_step_T Left Upper o d false (lnt DA r Row) r) (dloop true 0 (nta r))).
(** 845-935 *)
Definition dsolve_RLN d r := unless_empty r (flat_map (solve_step_N Right Lower d false r) (dloop false 0 (nta r))).
(** 937-1024 *)
Definition dsolve_RLT o d r := unless_empty r (flat_map (solve_step_T Right Lower o d false (lnt DA r Col) r) (dloop true 0 (nta r))).
(** 1026-1117 *)
Definition dsolve_RUN d r := unless_empty r (flat_map (solve_step_N Right Upper d true r) (dloop true 0 (nta r))).
(** 1119-1204; the loop of the links runs to distr_b.localNrTiles().cols() *)
Definition dsolve_RUT o d r := unless_empty r (flat_map (solve_step_T Right Upper o d true (lnt DB r Col) r) (dloop false 0 (nta r))).
(** triangular_solver(grid, side, uplo, op, diag, alpha, mat_a, mat_b): solver/triangular.h:82-128 *)
Definition dist_solver (s : side) (u : uplo) (o : op) (d : diag) (r : Z) : list (act (mat K)) :=
  match s with
  | Left => match u with
      | Lower => match o with NoTrans => dsolve_LLN d r | _ => dsolve_LLT o d r end
      | Upper => match o with NoTrans => dsolve_LUN d r | _ => dsolve_LUT o d r end end
  | Right => match u with
      | Lower => match o with NoTrans => dsolve_RLN d r | _ => dsolve_RLT o d r end
      | Upper => match o with NoTrans => dsolve_RUN d r | _ => dsolve_RUT o d r end end
  end.

(** ** Multiplication, op = NoTrans (the distributed variants with Trans and ConjTrans are DLAF_UNIMPLEMENTED) *)
(** one iteration of LLN (multiplication/triangular/impl.h:422-479), LUN (504-560), RLN (585-642), RUN (667-724). The panel b_panel gets its
    read access to the tiles of mat_b before the trmm on the same tiles is submitted (setTile precedes trmmBPanelTile): the trmm
    waits for the release of all these accesses, that is for the broadcast and the updates (C19). It is put after them here. *)
Definition mult_step_N (s : side) (u : uplo) (d : diag) (up jup : bool) (r k : Z) : list (act (mat K)) :=
  let rc := rcs s in let oc := other rc in
  let ap := a_links s up (lnt DA r rc) r k in
  let bp := b_links s jup r k in
  panel_broadcast P Q DA rc r (t_own Q DA r oc k) ap ++
  panel_broadcast P Q DB oc r (t_own Q DA r rc k) bp ++
  map ALoc (upd_jobs s jup al (if up then dloop true (t_nx Q DA r rc (k + 1)) (lnt DA r rc) else dloop false 0 (t_nx Q DA r rc k)) ap bp r k) ++
  map ALoc (row_jobs s jup (j_trmm s u NoTrans d) ap r k).
(** multiplication/triangular/impl.h:400-480, 482-561, 563-643, 645-726 *)
Definition dmult_LLN d r := unless_empty r (flat_map (mult_step_N Left Lower d true true r) (dloop false 0 (nta r))).
Definition dmult_LUN d r := unless_empty r (flat_map (mult_step_N Left Upper d false true r) (dloop true 0 (nta r))).
Definition dmult_RLN d r := unless_empty r (flat_map (mult_step_N Right Lower d false true r) (dloop true 0 (nta r))).
Definition dmult_RUN d r := unless_empty r (flat_map (mult_step_N Right Upper d true false r) (dloop false 0 (nta r))).
(** multiplication/triangular.h:128-180, op = NoTrans *)
Definition dist_multiplication (s : side) (u : uplo) (d : diag) (r : Z) : list (act (mat K)) :=
  match s, u with
  | Left, Lower => dmult_LLN d r | Left, Upper => dmult_LUN d r
  | Right, Lower => dmult_RLN d r | Right, Upper => dmult_RUN d r
  end.
End model.
