(** * Specification vocabulary for the messages of the distributed band_to_tridiagonal: it uses only the operations of the
    ranks, not the tag functions or helpers of the model. *)
From Coq Require Import ZArith List Bool.
From Verif Require Import B2TMsgModel.
Import ListNotations.
Local Open Scope Z_scope.

(** The messages that the rank running p sends to dst with a tag, in program order, and those it receives from src with a tag *)
Definition sends (p : list op) (dst tag : Z) : list data :=
  flat_map (fun o => match o with Send d t x => if (d =? dst) && (t =? tag) then [x] else [] | _ => [] end) p.
Definition recvs (p : list op) (src tag : Z) : list data :=
  flat_map (fun o => match o with Recv s t x => if (s =? src) && (t =? tag) then [x] else [] | _ => [] end) p.
(** Data x of the source is what y stands for at the destination.  nb: tile size of mat_v, nbb: tile size of the panels.
    Row rho of the panel of the sweeps from s0 belongs to row s0 + rho of mat_v, its first column is column s0. *)
Definition stands_for (nb nbb : Z) (x y : data) : Prop :=
  match x, y with
  | DTile i j, DTile i' j' => i = i' /\ j = j'
  | DCol blk j, DCol blk' j' => blk = blk' + 1 /\ j = j'
  | DWorker blk slot s t, DWorker blk' slot' s' t' => blk + 1 = blk' /\ slot = slot' /\ s = s' /\ t = t'
  | DPanel s0 p x m k, DV i j x' y' m' k' => m = m' /\ k = k' /\ s0 + (p * nbb + x) = i * nb + x' /\ s0 = j * nb + y'
  | _, _ => False
  end.
Definition kind (d : data) : Z :=
  match d with DTile _ _ => 0 | DCol _ _ => 1 | DWorker _ _ _ _ => 2 | DPanel _ _ _ _ _ | DV _ _ _ _ _ _ => 3 end.
(** What an operation makes available on the rank that runs it *)
Definition obtains (o : op) : list data := match o with Recv _ _ y => [y] | Local _ y => [y] | Send _ _ _ => [] end.
(** The copies and sends of panel elements: source of a piece *)
Definition gives (o : op) : list data := match o with Send _ _ x => [x] | Local x _ => [x] | Recv _ _ _ => [] end.
(** Element (rho, c) of the panel of the sweeps from s0 belongs to the piece d *)
Definition in_piece (nbb s0 rho c : Z) (d : data) : Prop :=
  match d with DPanel s0' p x m k => s0' = s0 /\ p * nbb + x <= rho < p * nbb + x + m /\ 0 <= c < k | _ => False end.
(** What a call needs: band size at least 2 (mc.h:215) and dividing the block size, a block size that does not exceed the tuning
    parameter, a grid of at least two ranks (mc.h:1045) *)
Definition cfg_ok (g : msg_cfg) : Prop :=
  0 <= m_size g /\ 2 <= m_b g /\ 0 < m_nb g /\ m_nb g mod m_b g = 0 /\ m_nb g <= m_base g /\
  0 < m_P g /\ 0 < m_Q g /\ 2 <= m_P g * m_Q g.
Definition data_eq_dec : forall x y : data, {x = y} + {x <> y}.
Proof. decide equality; apply Z.eq_dec. Defined.
(** How many times a rank obtains d *)
Definition obtained (p : list op) (d : data) : nat := count_occ data_eq_dec (flat_map obtains p) d.
