(** * Distributed band_to_tridiagonal: messages with the same sender, addressee and tag are started in order. *)
From Coq Require Import ZArith Lia List Bool Sorting.Sorted.
From Verif Require Import Loop HouseModel DistGrid DistMat B2TMsgModel B2TMsgSpec B2TMsgProofs B2TMsgMatch B2TMsgTags B2TSched SemModel SemProofs Reorder B2TDistModel B2TDistStruct B2TDistOrder B2TDistProgress B2TDistSeq B2TDistKey B2TDistFinal.
Import ListNotations.
Local Open Scope Z_scope.

Section fifo.
Variable g : msg_cfg.
Hypothesis G : cfg_ok g.
Variable rdv : dthread -> bool.
Context {V : Type}.
Variable deff : dact -> (dloc -> V) -> dloc -> V.
Variable m0 : dloc -> V.
Notation size := (m_size g).
Notation nbb := (nb_band g).
Notation spb := (steps_per_block g).
Notation wpt := (workers_per_tile g).
Notation steps := (steps g).
Notation sweeps := (sweeps g).
Notation NR := (nranks g).
Notation cv := (B2TDistStruct.cv g).
Notation P := (b2td g rdv deff).
Notation reach := (sreach dthread_eq P m0).
Notation state := (sstate dthread dloc V).
Notation fin := (finished P).
Notation "st @ t" := (Z.of_nat (pc st t)) (at level 10, t at next level).
Notation msgs := (B2TMsgModel.prog g).

Lemma sent_col : forall src dst tag blk j, 0 <= src < NR -> In (DCol blk j) (sends (msgs src) dst tag) -> cv (j - blk * nbb) (blk - 1).
Proof using G.
  intros src dst tag blk j R X. apply in_sends in X. apply (prog_in g G src dst tag _ R) in X. destruct X as [? ? ? ? ? X|s k S K L B J D T X|? ? ? ? ? ? ? ? X|? ? ? ? ? ? X ?]; try discriminate X.
  injection X as -> ->. unfold B2TMsgMatch.next_j, B2TDistStruct.cv, B2TDistModel.next_j in *. lia.
Qed.
Lemma sent_wrk : forall src dst tag blk slot s t, 0 <= src < NR -> In (DWorker blk slot s t) (sends (msgs src) dst tag) -> 0 <= s < sweeps /\ 0 <= blk /\ (blk + 1) * spb < steps s /\ slot = s mod wpt.
Proof using G.
  intros src dst tag blk slot s t R X. apply in_sends in X. apply (prog_in g G src dst tag _ R) in X. destruct X as [? ? ? ? ? X|? ? ? ? ? ? ? ? ? X|s' k S K L B D T X|? ? ? ? ? ? X ?]; try discriminate X.
  injection X as -> -> -> ->. auto.
Qed.
(** the receives are those of the sends *)
Lemma received : forall src dst tag y, 0 <= src < NR -> 0 <= dst < NR -> In y (recvs (msgs dst) src tag) -> exists x, In x (sends (msgs src) dst tag) /\ stands_for (m_nb g) nbb x y.
Proof using G.
  intros src dst tag y S D I. pose proof (prog_match g G src dst tag S D) as M. revert I. induction M as [|x z l l' H M IH]; [contradiction|]. intros [<-|I]; [exists x; split; [left; reflexivity|exact H]|]. destruct (IH I) as (u & U & W). exists u. split; [right; exact U|exact W].
Qed.
Section state.
Variable st : state.
Hypothesis R : reach st.
Theorem col_sends : forall src dst tag blk j blk' j', 0 <= src < NR -> In (DCol blk j) (sends (msgs src) dst tag) -> In (DCol blk' j') (sends (msgs src) dst tag) ->
  j - blk * nbb < j' - blk' * nbb -> fin st (TAcq (j' - blk' * nbb) blk') -> fin st (TSendC (j - blk * nbb) blk).
Proof using G R.
  intros src dst tag blk j blk' j' S X Y L A. pose proof (sent_col _ _ _ _ _ S X) as C. pose proof (sent_col _ _ _ _ _ S Y) as C'. pose proof (B2TMsgTags.col_key g G src dst tag blk j blk' j' S X Y) as K.
  assert (SZ : 0 < size) by (pose proof (sweeps_le g); pose proof (cv_sweep g G _ _ C); lia).
  assert (A1 : 1 <= st @ (TAcq (j' - blk' * nbb) blk')) by (rewrite (fin_pc g rdv deff st _ A); cbn; lia).
  pose proof (W_send g G rdv deff m0 st R SZ _ _ C' A1) as [W1 _]. pose proof (cv_sweep g G _ _ C) as Ls. pose proof (cv_sweep g G _ _ C') as Ls'. pose proof (nbb2 g G). pose proof (spb1 g G) as S1. pose proof (g_NR g G). pose proof (g_b g G). destruct (g_spb g G) as [EN _].
  assert (C3 : j < size) by (destruct C as (_ & _ & C3); unfold B2TDistModel.next_j in C3; lia). assert (C3' : j' < size) by (destruct C' as (_ & _ & C3'); unfold B2TDistModel.next_j in C3'; lia).
  set (s := j - blk * nbb) in *. set (s' := j' - blk' * nbb) in *. set (o := Z.min s' (last_sem g blk')) in *.
  assert (O : (o = s' \/ (o = s' - 1 /\ j' = size - 1))) by (unfold o, last_sem, s'; lia).
  assert (SO : s < o). { destruct O as [O|[O E]]; [lia|]. destruct K as [[K1 K2]|[(K1 & K2 & K3)|(K1 & K2 & K3)]]; [exfalso; subst blk'; destruct K2 as [_ K2]; specialize (K2 E); subst; lia|nia|nia]. }
  apply (F_send g G rdv deff m0 st R SZ s (blk' * spb + (o - s)) blk); [apply W1; lia|exact C|].
  destruct K as [[K1 _]|[(K1 & K2 & K3)|(K1 & K2 & K3)]]; [subst blk'; lia| |].
  - exfalso. fold s s' in K3. nia.
  - fold s s' in K3. assert (nbb >= 2 * spb) by nia. assert (NR * nbb >= NR * spb) by nia. assert (o >= s' - 1) by lia. subst blk. nia.
Qed.
Theorem col_recvs : forall src dst tag blk j blk' j', 0 <= src < NR -> 0 <= dst < NR -> In (DCol blk j) (recvs (msgs dst) src tag) -> In (DCol blk' j') (recvs (msgs dst) src tag) ->
  j - (blk + 1) * nbb < j' - (blk' + 1) * nbb -> fin st (TPostC (j' - (blk' + 1) * nbb) blk') -> finished_act P st (RecvC (j - (blk + 1) * nbb) blk).
Proof using G R.
  intros src dst tag blk j blk' j' S D X Y L A. destruct (received _ _ _ _ S D X) as (x & X1 & X2). destruct (received _ _ _ _ S D Y) as (y & Y1 & Y2). destruct x as [|b1 j1| | |]; try contradiction. destruct y as [|b2 j2| | |]; try contradiction. cbn in X2, Y2. destruct X2 as [-> ->], Y2 as [-> ->].
  pose proof (sent_col _ _ _ _ _ S X1) as C. pose proof (sent_col _ _ _ _ _ S Y1) as C'. pose proof (B2TMsgTags.col_key g G src dst tag _ _ _ _ S X1 Y1) as K. replace (blk + 1 - 1) with blk in C by lia. replace (blk' + 1 - 1) with blk' in C' by lia.
  assert (SZ : 0 < size) by (pose proof (sweeps_le g); pose proof (cv_sweep g G _ _ C); lia). pose proof (cv_sweep g G _ _ C) as Ls. pose proof (cv_sweep g G _ _ C') as Ls'. pose proof (nbb2 g G). pose proof (spb1 g G) as S1. pose proof (g_NR g G). pose proof (g_b g G). destruct (g_spb g G) as [EN _].
  set (s := j - (blk + 1) * nbb) in *. set (s' := j' - (blk' + 1) * nbb) in *. assert (K0 : 0 <= blk') by apply C'.
  assert (F : fin st (col_dep g s' blk')) by (apply (join_at g G rdv deff m0 st R SZ (TPostC s' blk') 0); [exact C'|reflexivity|rewrite (fin_pc g rdv deff st _ A); cbn; lia]).
  unfold col_dep in F. destruct (Z.eqb_spec s' 0); [lia|]. assert (C1 : cv (s' - 1) blk') by (destruct C' as (C1 & C2 & C3); unfold B2TDistStruct.cv, B2TDistModel.next_j in *; lia). rewrite (last_cv g G _ _ C1) in F. pose proof (cv_full g G _ _ C1) as CF.
  assert (D1 : B2TDistOrder.D g st (s' - 1) ((blk' + 1) * spb - 1 + 1)). { apply (D_of g G rdv deff m0 st (s' - 1) _ R); [lia|nia|]. pose proof (step_len g rdv (s' - 1) ((blk' + 1) * spb - 1)). rewrite (fin_pc g rdv deff st _ F). lia. }
  pose proof (D_down g G rdv deff m0 st (s' - 1) ((blk' + 1) * spb - 1 + 1) s R ltac:(lia) ltac:(lia) ltac:(nia) D1) as D2.
  apply (actf_fin g G rdv deff st _ SZ); [split; [exact C|exact I]|]. unfold actf. cbn [pos owner]. assert (4 <= st @ (TRecvC s blk)); [|lia].
  apply (F_recv g G rdv deff m0 st R SZ s _ blk D2 C). destruct K as [[K1 _]|[(K1 & K2 & K3)|(K1 & K2 & K3)]].
  - assert (blk = blk') by lia. subst blk'. lia.
  - exfalso. fold s s' in K3. nia.
  - fold s s' in K3. assert (nbb >= spb) by nia. assert (NR * nbb >= NR * spb) by nia. assert (EB : blk = blk' + NR) by lia. rewrite EB. nia.
Qed.
Theorem wrk_sends : forall src dst tag blk slot s t blk' slot' s' t', 0 <= src < NR -> In (DWorker blk slot s t) (sends (msgs src) dst tag) -> In (DWorker blk' slot' s' t') (sends (msgs src) dst tag) ->
  s < s' -> fin st (TStep s' (last_step g s' blk')) -> fin st (TSendW s blk).
Proof using G R.
  intros src dst tag blk slot s t blk' slot' s' t' S X Y L F. destruct (sent_wrk _ _ _ _ _ _ _ S X) as (Ls & Lb & A & E). destruct (sent_wrk _ _ _ _ _ _ _ S Y) as (Ls' & Lb' & A' & E'). destruct (B2TMsgTags.worker_key g G src dst tag _ _ _ _ _ _ _ _ S X Y) as (<- & EE & _).
  assert (SZ : 0 < size) by (pose proof (sweeps_le g); lia). pose proof (spb1 g G). destruct (block_done g G rdv deff m0 st R SZ s' blk Ls' Lb ltac:(nia) F) as (_ & _ & _ & FW).
  assert (FL : fin st (wlast g s blk)) by (apply (wchain g G rdv deff m0 st R SZ s blk s'); [lia|lia|lia|nia|congruence|exact FW]).
  destruct (wlast_step g G rdv deff m0 st R SZ s blk Ls Lb ltac:(nia) FL) as [_ HX]. apply HX. exact A.
Qed.
Theorem wrk_recvs : forall src dst tag blk slot s t blk' slot' s' t', 0 <= src < NR -> 0 <= dst < NR -> In (DWorker blk slot s t) (recvs (msgs dst) src tag) -> In (DWorker blk' slot' s' t') (recvs (msgs dst) src tag) ->
  s < s' -> fin st (TPostW s' blk') -> fin st (TRecvW s blk).
Proof using G R.
  intros src dst tag blk slot s t blk' slot' s' t' S D X Y L F. destruct (received _ _ _ _ S D X) as (x & X1 & X2). destruct (received _ _ _ _ S D Y) as (y & Y1 & Y2). destruct x as [| |b1 sl1 s1 t1| |]; try contradiction. destruct y as [| |b2 sl2 s2 t2| |]; try contradiction. cbn in X2, Y2. destruct X2 as (EB1 & -> & -> & ->), Y2 as (EB2 & -> & -> & ->).
  destruct (sent_wrk _ _ _ _ _ _ _ S X1) as (Ls & Lb & A & E). destruct (sent_wrk _ _ _ _ _ _ _ S Y1) as (Ls' & Lb' & A' & E'). destruct (B2TMsgTags.worker_key g G src dst tag _ _ _ _ _ _ _ _ S X1 Y1) as (<- & EE & _). rewrite EB1 in A. rewrite EB1 in A'. assert (EQB : blk' = blk) by lia. rewrite EQB in F.
  assert (SZ : 0 < size) by (pose proof (sweeps_le g); lia). pose proof (spb1 g G).
  assert (FW : fin st (wpred g s' blk)) by (apply (join_at g G rdv deff m0 st R SZ (TPostW s' blk) 0); [cbn; lia|reflexivity|rewrite (fin_pc g rdv deff st _ F); cbn; lia]).
  assert (FL : fin st (wlast g s blk)) by (apply (wchain g G rdv deff m0 st R SZ s blk s'); [lia|lia|lia|lia|congruence|exact FW]).
  destruct (wlast_step g G rdv deff m0 st R SZ s blk Ls ltac:(lia) A FL) as [FS _]. destruct (block_done g G rdv deff m0 st R SZ s blk Ls ltac:(lia) A FS) as (_ & _ & RW & _). apply RW. lia.
Qed.
End state.
End fifo.
