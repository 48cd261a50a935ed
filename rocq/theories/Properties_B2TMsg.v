(** * C54: the point-to-point messages of the distributed band_to_tridiagonal *)
From Coq Require Import ZArith Lia List Bool.
From Verif Require Import Loop HouseModel DistGrid DistMat B2TMsgModel B2TMsgSpec B2TMsgProofs B2TMsgMatch B2TMsgTags B2TMsgCover.
Import ListNotations.
Local Open Scope Z_scope.

(** For every ordered pair of ranks and every tag, what one sends with this tag is, in order, what the other receives with it:
    no message is lost, none is awaited in vain, each arrives where its data belong (stands_for), with equal extents. *)
Theorem C54_messages_match : forall g src dst tag, cfg_ok g -> 0 <= src < nranks g -> 0 <= dst < nranks g ->
  Forall2 (stands_for (m_nb g) (nb_band g)) (sends (prog g src) dst tag) (recvs (prog g dst) src tag).
Proof. intros g src dst tag G S D. apply prog_match; assumption. Qed.

(** Copies without message put the data in the same place; no rank sends to itself, or outside the communicator, and tags are not negative *)
Theorem C54_local_copies : forall g r x y, cfg_ok g -> 0 <= r < nranks g -> In (Local x y) (prog g r) -> stands_for (m_nb g) (nb_band g) x y.
Proof. intros g r x y G R H. apply (local_ok g G r); assumption. Qed.
Theorem C54_peers : forall g r dst tag d, cfg_ok g -> 0 <= r < nranks g -> In (Send dst tag d) (prog g r) ->
  0 <= dst < nranks g /\ dst <> r /\ 0 <= tag.
Proof. intros g r dst tag d G R H. exact (peers g G r dst tag d R H). Qed.

(** Messages of different kinds never share sender, addressee and tag *)
Theorem C54_kinds_apart : forall g src dst tag x y, cfg_ok g -> 0 <= src < nranks g ->
  In x (sends (prog g src) dst tag) -> In y (sends (prog g src) dst tag) -> kind x = kind y.
Proof. intros g src dst tag x y G S. apply same_kind; assumption. Qed.

(** A tile of the band or a block of reflectors is the only message with its sender, addressee and tag:
    the order in which these messages are started does not matter *)
Theorem C54_copy_and_reflector_tags_unique : forall g src dst tag x, cfg_ok g -> 0 <= src < nranks g ->
  In x (sends (prog g src) dst tag) -> (exists i j, x = DTile i j) \/ (exists s0 p y m n, x = DPanel s0 p y m n) ->
  sends (prog g src) dst tag = [x].
Proof.
  intros g src dst tag x G S X K. apply copy_v_unique; try assumption. destruct K as [(i & j & ->)|(s0 & p & y & m & k & ->)]; auto.
Qed.

(** Workers with the same sender, addressee and tag come from one worker pipeline (same block, same slot), and go to one: the
    pipelines, whose accesses are granted in program order (C19), keep them in order *)
Theorem C54_worker_tags : forall g src dst tag blk slot s st blk' slot' s' st', cfg_ok g -> 0 <= src < nranks g -> 0 <= dst < nranks g ->
  (In (DWorker blk slot s st) (sends (prog g src) dst tag) -> In (DWorker blk' slot' s' st') (sends (prog g src) dst tag) -> blk = blk' /\ slot = slot') /\
  (In (DWorker blk slot s st) (recvs (prog g dst) src tag) -> In (DWorker blk' slot' s' st') (recvs (prog g dst) src tag) -> blk = blk' /\ slot = slot').
Proof.
  intros g src dst tag blk slot s st blk' slot' s' st' G S D.
  assert (A : forall a sl w q a' sl' w' q', In (DWorker a sl w q) (sends (prog g src) dst tag) -> In (DWorker a' sl' w' q') (sends (prog g src) dst tag) -> a = a' /\ sl = sl').
  { intros a sl w q a' sl' w' q' X Y. destruct (worker_key g G src dst tag a sl w q a' sl' w' q' S X Y) as (-> & -> & _). auto. }
  split; [apply A|]. pose proof (prog_match g G src dst tag S D) as M.
  assert (B : forall y, In y (recvs (prog g dst) src tag) -> exists x, In x (sends (prog g src) dst tag) /\ stands_for (m_nb g) (nb_band g) x y).
  { induction M as [|x y l l' H M IH]; [contradiction|]. intros z [<-|Hz]; [exists x; split; [left; reflexivity|exact H]|]. assert (IA : forall a sl w q a' sl' w' q', In (DWorker a sl w q) l -> In (DWorker a' sl' w' q') l -> a = a' /\ sl = sl') by (intros; eapply A; right; eassumption).
    destruct (IH IA z Hz) as (u & U & V). exists u. split; [right; exact U|exact V]. }
  intros X Y. destruct (B _ X) as (x & X1 & X2). destruct (B _ Y) as (y & Y1 & Y2).
  destruct x as [| |a sl w q| |]; try contradiction. destruct y as [| |a' sl' w' q'| |]; try contradiction. cbn in X2, Y2. destruct (A _ _ _ _ _ _ _ _ X1 Y1). lia.
Qed.

(** Columns with the same sender, addressee and tag are columns of one block, all different from the last column of the matrix or all
    equal to it; or one of them is the last column and the other belongs to the block nranks further, in a sweep more than
    nranks * nb_band earlier *)
Theorem C54_column_tags : forall g src dst tag blk j blk' j', cfg_ok g -> 0 <= src < nranks g ->
  In (DCol blk j) (sends (prog g src) dst tag) -> In (DCol blk' j') (sends (prog g src) dst tag) ->
  (blk = blk' /\ (j = m_size g - 1 <-> j' = m_size g - 1)) \/
  (blk' = blk + nranks g /\ j = m_size g - 1 /\ j' - blk' * nb_band g + nranks g * nb_band g < j - blk * nb_band g) \/
  (blk = blk' + nranks g /\ j' = m_size g - 1 /\ j - blk * nb_band g + nranks g * nb_band g < j' - blk' * nb_band g).
Proof. intros g src dst tag blk j blk' j' G S. apply col_key; assumption. Qed.

(** The rank of a block of the band obtains each tile of it (diagonal and first subdiagonal) exactly once, the others never *)
Theorem C54_band_copied : forall g r i j, cfg_ok g -> 0 <= r < nranks g -> 0 <= j -> j * m_nb g < m_size g ->
  i = j \/ (i = j + 1 /\ i * m_nb g < m_size g) ->
  obtained (prog g r) (DTile i j) = if r =? (j * m_nb g / nb_band g) mod nranks g then 1%nat else 0%nat.
Proof.
  intros g r i j G R J L H. pose proof (g_nb g G). assert (Lt : forall q, q * m_nb g < m_size g -> q < ntl g) by (intros q Lq; unfold ntl; apply B2TSched.ceil_div_lt; lia).
  apply band_copied; auto. destruct H as [->|[-> H1]]; [left; reflexivity|right; split; [reflexivity|]]. specialize (Lt _ H1). lia.
Qed.

(** Every element of every reflector (step t of sweep s, element x) leaves the panel of its rank in exactly one piece;
    C54_messages_match and C54_local_copies say that the piece goes to rows s / b * b + t * b + x of column s of mat_v *)
Theorem C54_reflectors_sent : forall g s t x, cfg_ok g -> 0 <= s < sweeps g -> 0 <= t < steps g s ->
  0 <= x < Z.min (m_b g) (m_size g - 1 - s - t * m_b g) ->
  let s0 := s / m_b g * m_b g in let rho := t * m_b g + x in let c := s mod m_b g in
  exists d, In d (flat_map gives (prog g ((rho / nb_band g) mod nranks g))) /\ in_piece (nb_band g) s0 rho c d /\
    forall r' d', 0 <= r' < nranks g -> In d' (flat_map gives (prog g r')) -> in_piece (nb_band g) s0 rho c d' ->
    r' = (rho / nb_band g) mod nranks g /\ d' = d.
Proof. intros g s t x G S T X. cbv zeta. apply reflectors_sent; assumption. Qed.
(** The pieces arrive on the rank that owns their tile of mat_v, and fit in the tile and in the matrix *)
Theorem C54_reflectors_placed : forall g r i j x y m c, cfg_ok g -> 0 <= r < nranks g -> In (DV i j x y m c) (flat_map obtains (prog g r)) ->
  drank (m_P g) (m_Q g) (m_src g) i j = r /\ 0 <= i /\ 0 <= j /\ 1 <= m /\ 1 <= c /\ 0 <= x /\ x + m <= m_nb g /\ 0 <= y /\ y + c <= m_nb g /\
  i * m_nb g + x + m <= m_size g /\ j * m_nb g + y + c <= m_size g.
Proof. intros g r i j x y m c G R H. apply (reflectors_placed g G r i j x y m c R H). Qed.

(** get1DBlockSize: a multiple of the block size exactly when the block size does not exceed the tuning parameter; otherwise 1, which
    the constructor of BandBlock rejects (mc.h:216) *)
Theorem C54_block_size : forall base nb, 1 <= nb -> 1 <= base ->
  (nb <= base -> (get_1d_block_size base nb) mod nb = 0 /\ nb <= get_1d_block_size base nb <= base) /\
  (base < nb -> get_1d_block_size base nb = 1).
Proof.
  intros base nb N B. unfold get_1d_block_size. split; intros H.
  - assert (1 <= base / nb) by (apply Z.div_le_lower_bound; lia). rewrite Z.max_r by nia. split; [apply Z.mod_mul; lia|].
    pose proof (Z.mul_div_le base nb ltac:(lia)). nia.
  - rewrite Z.div_small by lia. reflexivity.
Qed.

(** ** Concrete configurations *)
Definition g_ex : msg_cfg := Cfg 21 4 2 8 2 2 (1, 0) true.
Example C54_hypotheses_hold : cfg_ok g_ex /\ nranks g_ex = 4 /\ nb_band g_ex = 8.
Proof. unfold cfg_ok. cbn. lia. Qed.
(** all four kinds of messages occur *)
Example C54_all_kinds_occur :
  map (fun q => length (filter (fun o => match o with Send _ _ d => kind d =? q | _ => false end) (flat_map (prog g_ex) [0; 1; 2; 3]))) [0; 1; 2; 3] = [8; 18; 14; 26]%nat.
Proof. vm_compute. reflexivity. Qed.
(** Two ranks: the tag of the last column of block 0 is also the tag of other columns of block 2 *)
Definition g_ex2 : msg_cfg := Cfg 9 2 2 2 2 1 (0, 0) false.
Example C54_column_tag_shared : cfg_ok g_ex2 /\ sends (prog g_ex2 1) 0 (col_tag g_ex2 0 true) = [DCol 3 6; DCol 3 7; DCol 1 8].
Proof. split; [unfold cfg_ok; cbn; lia|]. vm_compute. reflexivity. Qed.
(** So tags alone do not separate the column messages *)
Theorem C54_column_tags_unique_refuted : ~ (forall g src dst tag x y, cfg_ok g -> 0 <= src < nranks g ->
  In x (sends (prog g src) dst tag) -> In y (sends (prog g src) dst tag) -> x = y).
Proof.
  intros H. destruct C54_column_tag_shared as [G E]. specialize (H g_ex2 1 0 (col_tag g_ex2 0 true) (DCol 3 6) (DCol 1 8) G).
  rewrite E in H. assert (F : DCol 3 6 = DCol 1 8) by (apply H; [vm_compute; split; [discriminate|reflexivity]|cbn; auto|cbn; auto]). discriminate.
Qed.

(** ** Assumptions *)
Print Assumptions C54_messages_match.
Print Assumptions C54_local_copies.
Print Assumptions C54_peers.
Print Assumptions C54_kinds_apart.
Print Assumptions C54_copy_and_reflector_tags_unique.
Print Assumptions C54_worker_tags.
Print Assumptions C54_column_tags.
Print Assumptions C54_band_copied.
Print Assumptions C54_reflectors_sent.
Print Assumptions C54_reflectors_placed.
Print Assumptions C54_block_size.
Print Assumptions C54_column_tags_unique_refuted.
