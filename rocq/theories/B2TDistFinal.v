(** * Distributed band_to_tridiagonal: the theorem on all executions. *)
From Coq Require Import ZArith Lia List Bool Sorting.Sorted.
From Verif Require Import Loop HouseModel DistGrid DistMat B2TMsgModel B2TMsgSpec B2TMsgProofs B2TSched SemModel SemProofs Reorder B2TDistModel B2TDistStruct B2TDistOrder B2TDistProgress B2TDistSeq B2TDistKey.
Import ListNotations.
Local Open Scope Z_scope.

Section final.
Variable g : msg_cfg.
Hypothesis G : cfg_ok g.
Variable rdv : dthread -> bool.
Context {V : Type}.
Variable deff : dact -> (dloc -> V) -> dloc -> V.
Variable m0 : dloc -> V.
Notation size := (m_size g).
Notation nb := (m_nb g).
Notation b := (m_b g).
Notation nbb := (nb_band g).
Notation spb := (steps_per_block g).
Notation tpb := (tiles_per_block g).
Notation wpt := (workers_per_tile g).
Notation steps := (steps g).
Notation sweeps := (sweeps g).
Notation next_j := (next_j g).
Notation cv := (cv g).
Notation tok := (tok g).
Notation P := (b2td g rdv deff).
Notation reach := (sreach dthread_eq P m0).
Notation state := (sstate dthread dloc V).
Notation ths := (dthreads g).
Notation fin := (finished P).
Notation "st @ t" := (Z.of_nat (pc st t)) (at level 10, t at next level).
Notation act_ok := (act_ok g).
Notation klt := (klt g).
Notation swp := (swp g).
Notation lo_of := (lo_of g).
Notation hi_of := (hi_of g).
Notation blk_of := (blk_of g).

(** ** Columns *)
Lemma touch : forall a k i, touches g a k i = true -> colact a /\ blk_of a = k /\ exists c, lo_of a <= c < hi_of a /\ ring g k c = i.
Proof using.
  clear. intros a k i H. unfold touches in H. unfold B2TDistKey.blk_of, B2TDistKey.lo_of, B2TDistKey.hi_of. destruct (cols_of g a) as [[kk lo] hi] eqn:E. cbn [fst snd]. apply andb_prop in H as [H1 H2]. apply existsb_exists in H2 as (c & Ic & E2). apply in_zrange in Ic.
  split; [|split; [lia|exists c; split; [exact Ic|lia]]]. destruct a; cbn [colact cols_of] in *; try exact I; inversion E; subst; lia.
Qed.
Lemma ncols_pos : forall k, 2 + nbb <= ncols g k.
Proof using G. intros k. pose proof (nbb2 g G). unfold ncols. destruct (k =? 0); lia. Qed.
Lemma ring_same : forall k c c', ring g k c = ring g k c' -> exists q, c = c' + q * ncols g k.
Proof using G.
  intros k c c' E. pose proof (ncols_pos k) as N. pose proof (nbb2 g G). unfold ring in E. exists ((c - nbb * k) / ncols g k - (c' - nbb * k) / ncols g k).
  pose proof (Z.div_mod (c - nbb * k) (ncols g k) ltac:(lia)). pose proof (Z.div_mod (c' - nbb * k) (ncols g k) ltac:(lia)). lia.
Qed.
Lemma tri_low : forall i, i = size \/ i = size - 1 -> 0 < size -> size - 1 - nb <= tri_start g i.
Proof using G.
  intros i Li SZ. pose proof (g_nb g G) as N. unfold tri_start, tri_tile. destruct (Z_lt_le_dec (i - 1) 0) as [L|L].
  - assert (i = 0) by lia. pose proof (Z.quot_rem' (i - 1) nb). pose proof (Z.rem_nonpos (i - 1) nb ltac:(lia) ltac:(lia)). set (q := Z.quot (i - 1) nb) in *. lia.
  - rewrite Z.quot_div_nonneg by lia. pose proof (Z.div_mod (i - 1) nb ltac:(lia)). pose proof (Z.mod_pos_bound (i - 1) nb ltac:(lia)). lia.
Qed.
Lemma bounds : forall a c, 0 < size -> act_ok a -> colact a -> lo_of a <= c < hi_of a -> 0 <= blk_of a /\ c < size /\
  match a with
  | TriF i => blk_of a = 0 /\ size - 1 - nb <= c
  | Copy j => blk_of a * nbb <= c < (blk_of a + 1) * nbb
  | TriS s => blk_of a = 0 /\ s - nb < c <= s
  | _ => swp a + blk_of a * nbb <= c <= swp a + (blk_of a + 1) * nbb
  end.
Proof using G.
  intros a c SZ [OK X] CA L. pose proof (nbb2 g G) as N2. pose proof (g_nb g G) as Nn. pose proof (sweeps_le g) as SL. destruct a as [j|s k|s k|s|s|s t|s t|s k|s k|i]; try contradiction; unfold B2TDistKey.blk_of, B2TDistKey.lo_of, B2TDistKey.hi_of in *; cbn [cols_of fst snd owner B2TDistStruct.tok B2TDistKey.swp] in *.
  - pose proof (tb g G j ltac:(lia)) as (T0 & T1). rewrite !(nbb_t g G). nia.
  - destruct OK as (C1 & C2 & C3). unfold B2TDistModel.next_j in C3. replace (k - 1 + 1) with k in C3 by lia. lia.
  - destruct OK as (C1 & C2 & C3). unfold B2TDistModel.next_j in *. lia.
  - lia.
  - lia.
  - destruct OK as [Ls Lt]. pose proof (kb g G t ltac:(lia)) as (K0 & K1). pose proof (g_b g G). rewrite !(nbb_e g G). nia.
  - split; [lia|]. pose proof (tri_low i ltac:(lia) SZ). lia.
Qed.
Lemma klt_swp : forall a b', act_ok a -> act_ok b' -> klt a b' -> Z.max 0 (swp a) <= Z.max 0 (swp b').
Proof using G.
  intros a b' OKa OKb L. assert (S : forall x, act_ok x -> match x with TriF _ | Copy _ => True | _ => swp x < sweeps end).
  { intros x [OK _]. destruct x; cbn [owner B2TDistStruct.tok B2TDistKey.swp] in *; try exact I; try lia; apply (cv_sweep g G _ _ OK). }
  pose proof (S a OKa) as Sa. pose proof (S b' OKb) as Sb. unfold B2TDistSeq.klt in L. destruct a, b'; cbn [key B2TDistKey.swp] in *; lia.
Qed.
Lemma col_le : forall a b' c c', 0 < size -> act_ok a -> act_ok b' -> klt a b' -> colact a -> colact b' -> blk_of a = blk_of b' -> lo_of a <= c < hi_of a -> lo_of b' <= c' < hi_of b' ->
  (forall i, a <> TriF i) -> ring g (blk_of a) c = ring g (blk_of a) c' -> c <= c' /\ (c = c' \/ c + ncols g (blk_of a) <= c').
Proof using G.
  intros a b' c c' SZ OKa OKb K CA CB EB La Lb NT E. apply ring_same in E as (q & E). pose proof (ncols_pos (blk_of a)) as NC. pose proof (nbb2 g G) as N2. pose proof (g_bbpos g G) as BP.
  pose proof (bounds a c SZ OKa CA La) as Ba. pose proof (bounds b' c' SZ OKb CB Lb) as Bb. pose proof (klt_swp a b' OKa OKb K) as KS.
  assert (S : forall x, act_ok x -> match x with TriF _ | Copy _ => True | _ => 0 <= swp x end).
  { intros x [OK _]. destruct x; cbn [owner B2TDistStruct.tok B2TDistKey.swp] in *; try exact I; try lia; apply OK. }
  pose proof (S a OKa) as Sa. pose proof (S b' OKb) as Sb.
  assert (H : c - c' < ncols g (blk_of a)).
  { assert (A : c <= Z.max 0 (swp a) + (blk_of a + 1) * nbb) by (destruct a as [j|s k|s k|s|s|s t|s t|s k|s k|i]; try contradiction; cbn [B2TDistKey.swp] in *; try lia; exfalso; apply (NT i); reflexivity).
    unfold ncols in *. destruct b' as [j|s k|s k|s|s|s t|s t|s k|s k|i]; try contradiction; cbn [B2TDistKey.swp] in *; rewrite <- EB in Bb; destruct (Z.eqb_spec (blk_of a) 0); lia. }
  assert (q <= 0) by nia. destruct (Z.eq_dec q 0) as [->|]; [lia|]. split; [nia|right; nia].
Qed.
Section state.
Variable st : state.
Hypothesis R : reach st.
Hypothesis SZ : 0 < size.
Notation W := (W g rdv deff st).
Notation kills := (W_kills g G rdv deff m0 st R SZ).
Theorem col_key : forall a b' c c', act_ok a -> act_ok b' -> pos b' <= st @ (owner b') -> klt a b' -> colact a -> colact b' -> blk_of a = blk_of b' -> lo_of a <= c < hi_of a -> lo_of b' <= c' < hi_of b' ->
  writes_cols a = true \/ writes_cols b' = true -> ring g (blk_of a) c = ring g (blk_of a) c' -> actf st a.
Proof using G R SZ.
  intros a b' c c' OKa OKb BG K CA CB EB La Lb WR E.
  pose proof (nbb2 g G) as N2. pose proof (g_bbpos g G) as BP. pose proof (g_b g G) as HB. pose proof (spb1 g G) as S1. pose proof (sweeps_le g) as SL.
  destruct b' as [j'|s' k'|s' k'|s'|s'|s' t'|s' t'|s' k'|s' k'|i']; try contradiction.
  - (* Copy *)
    assert (NT : forall i, a <> TriF i) by (intros i ->; unfold B2TDistSeq.klt in K; cbn [key] in K; lia).
    destruct (col_le a _ c c' SZ OKa OKb K CA CB EB La Lb NT E) as [LE EQ]. destruct a as [j|s k|s k|s|s|s t|s t|s k|s k|i]; try contradiction; unfold B2TDistSeq.klt in K; cbn [key] in K; try lia.
    exfalso. pose proof (bounds _ c SZ OKa CA La) as Ba. pose proof (bounds _ c' SZ OKb CB Lb) as Bb. pose proof (ncols_pos (blk_of (Copy j))). cbn [B2TDistKey.swp] in Ba, Bb. rewrite <- EB in Bb. unfold B2TDistKey.lo_of, B2TDistKey.hi_of in *. cbn [cols_of fst snd] in *. destruct EQ as [->|]; [|lia]. pose proof (g_nb g G). nia.
  - (* SendC *)
    assert (NT : forall i, a <> TriF i) by (intros i ->; unfold B2TDistSeq.klt in K; cbn [key] in K; lia).
    destruct (col_le a _ c c' SZ OKa OKb K CA CB EB La Lb NT E) as [LE EQ]. unfold B2TDistKey.lo_of in Lb at 1. unfold B2TDistKey.hi_of in Lb at 1. cbn [cols_of fst snd] in Lb. assert (EC : c' = s' + k' * nbb) by lia.
    destruct OKb as [OKb _]. cbn [owner B2TDistStruct.tok] in OKb. cbn [pos owner] in BG.
    assert (AQ : fin st (TAcq s' k')) by (apply (join_at g G rdv deff m0 st R SZ (TSendC s' k') 0); [exact OKb|reflexivity|lia]).
    assert (A1 : 1 <= st @ (TAcq s' k')) by (rewrite (fin_pc g rdv deff st _ AQ); cbn; lia).
    pose proof (W_send g G rdv deff m0 st R SZ s' k' OKb A1) as WW. pose proof (cv_sweep g G _ _ OKb) as Ls'. change (blk_of (SendC s' k')) with k' in *.
    assert (K1 : 1 <= k') by (assert (0 <= k' - 1) by apply OKb; lia). assert (CC : s' + k' * nbb < size) by (destruct OKb as (_ & _ & C3); unfold B2TDistModel.next_j in C3; replace (k' - 1 + 1) with k' in C3 by lia; lia).
    set (o := Z.min s' (last_sem g k')) in *. assert (O : 0 <= o <= s' /\ (o = s' \/ (o = s' - 1 /\ s' + k' * nbb = size - 1))) by (unfold o, last_sem; lia). destruct O as [O1 O2].
    assert (LO : lo_of a <= o + k' * spb * b + 1) by (rewrite <- (nbb_e g G); lia).
    assert (KK : swp a < o \/ (exists j, a = Copy j) \/ ~ (swp a < o) /\ (forall j, a <> Copy j)) by (destruct (Z_lt_le_dec (swp a) o); [auto|right]; destruct a; eauto; right; split; try lia; intros; discriminate).
    destruct KK as [KK|[KK|[KK NC]]]; [apply (kills k' o (k' * spb) a WW); auto; try lia; nia|apply (kills k' o (k' * spb) a WW); auto; try lia; nia|]. exfalso.
    destruct a as [j|s k|s k|s|s|s t|s t|s k|s k|i]; try contradiction; cbn [writes_cols] in WR; unfold B2TDistSeq.klt in K; cbn [key] in K; cbn [B2TDistKey.swp] in KK; unfold B2TDistKey.blk_of in EB; cbn [cols_of fst snd] in EB; unfold B2TDistKey.lo_of, B2TDistKey.hi_of in La; cbn [cols_of fst snd] in La; try lia.
    + subst k. unfold B2TDistModel.next_j in La. assert (s < s' \/ s = s') by lia. destruct OKa as [OKa _]. assert (0 <= s) by apply OKa. nia.
    + destruct OKa as [[Ls Lt] _]. pose proof (kb g G t ltac:(lia)) as (U0 & U1). rewrite EB in U1. assert (A : s + k' * nbb < size - 2) by (apply (act_iff g G); lia). lia.
  - (* RecvC *)
    assert (NT : forall i, a <> TriF i) by (intros i ->; unfold B2TDistSeq.klt in K; cbn [key] in K; lia).
    destruct (col_le a _ c c' SZ OKa OKb K CA CB EB La Lb NT E) as [LE EQ]. unfold B2TDistKey.lo_of in Lb at 1. unfold B2TDistKey.hi_of in Lb at 1. cbn [cols_of fst snd] in Lb. assert (EC : c' = next_j s' k') by lia.
    destruct OKb as [OKb _]. cbn [owner B2TDistStruct.tok] in OKb. cbn [pos owner] in BG.
    pose proof (W_recv g G rdv deff m0 st R SZ s' k' OKb BG) as WW. pose proof (cv_sweep g G _ _ OKb) as Ls'. change (blk_of (RecvC s' k')) with k' in *. assert (K0 : 0 <= k') by apply OKb.
    assert (U0 : 0 <= (k' + 1) * spb - 1) by nia.
    pose proof (bounds a c SZ OKa CA La) as Ba. rewrite EB in Ba. destruct a as [j|s k|s k|s|s|s t|s t|s k|s k|i]; try contradiction; unfold B2TDistSeq.klt in K; cbn [key] in K; unfold B2TDistKey.blk_of in EB; cbn [cols_of fst snd] in EB; cbn [B2TDistKey.swp] in Ba.
    + apply (kills k' s' ((k' + 1) * spb - 1) _ WW); auto; try lia; [|right; eexists; reflexivity]. unfold B2TDistKey.lo_of. cbn [cols_of fst snd]. destruct OKa as [OKa _]. pose proof (tb g G j ltac:(apply OKa)) as (_ & TB). rewrite EB in TB. pose proof (nbb_t g G (k' + 1)) as E1. pose proof (nbb_e g G (k' + 1)) as E2. pose proof (g_c g G). pose proof (g_c1 g G). assert (b <= nb) by nia. assert (j * nb <= (k' + 1) * nbb - nb) by nia. nia.
    + destruct (Z.eq_dec s s') as [->|NS].
      * exfalso. unfold B2TDistKey.lo_of, B2TDistKey.hi_of in La. cbn [cols_of fst snd] in La. pose proof (ncols_pos (blk_of (SendC s' k))). unfold B2TDistModel.next_j in EC. subst k. lia.
      * apply (kills k' s' ((k' + 1) * spb - 1) _ WW); auto; try lia; [|left; cbn [B2TDistKey.swp]; lia]. unfold B2TDistKey.lo_of. cbn [cols_of fst snd]. subst k. rewrite (nbb_e g G). nia.
    + subst k. assert (s < s') by lia. destruct OKa as [OKa _]. cbn [owner B2TDistStruct.tok] in OKa. unfold actf. cbn [pos owner]. assert (4 <= st @ (TRecvC s k')); [|lia].
      apply (F_recv g G rdv deff m0 st R SZ s ((k' + 1) * spb - 1 + (s' - s)) k'); [assert (0 <= s) by apply OKa; apply (proj1 WW); lia|exact OKa|lia].
    + apply (kills k' s' ((k' + 1) * spb - 1) _ WW); auto; try lia; [|left; cbn [B2TDistKey.swp]; destruct OKa as [OKa _]; cbn in OKa; lia]. unfold B2TDistKey.lo_of. cbn [cols_of fst snd]. nia.
    + apply (kills k' s' ((k' + 1) * spb - 1) _ WW); auto; try lia; [|left; cbn [B2TDistKey.swp]; destruct OKa as [OKa _]; cbn in OKa; lia]. unfold B2TDistKey.lo_of. cbn [cols_of fst snd]. pose proof (g_nb g G). nia.
    + apply (kills k' s' ((k' + 1) * spb - 1) _ WW); auto; try lia; [|left; cbn [B2TDistKey.swp]; lia]. unfold B2TDistKey.lo_of. cbn [cols_of fst snd]. destruct OKa as [[Ls Lt] _]. pose proof (kb g G t ltac:(lia)) as (_ & U1). rewrite EB in U1. nia.
    + exfalso. apply (NT i). reflexivity.
  - (* Init *)
    assert (NT : forall i, a <> TriF i) by (intros i ->; unfold B2TDistSeq.klt in K; cbn [key] in K; lia).
    destruct (col_le a _ c c' SZ OKa OKb K CA CB EB La Lb NT E) as [LE EQ]. unfold B2TDistKey.lo_of in Lb at 1. unfold B2TDistKey.hi_of in Lb at 1. cbn [cols_of fst snd] in Lb. assert (EC : c' = s') by lia.
    destruct OKb as [OKb _]. cbn [owner B2TDistStruct.tok] in OKb. cbn [pos owner] in BG. pose proof (W_init g G rdv deff m0 st R SZ s' OKb BG) as WW. change (blk_of (Init s')) with 0 in *.
    assert (KK : swp a < s' \/ (exists j, a = Copy j) \/ (exists k, a = SendC s' k) \/ (exists k, a = RecvC s' k)).
    { unfold B2TDistSeq.klt in K. destruct a; try contradiction; cbn [key B2TDistKey.swp] in *; eauto; try lia. - destruct (Z.eq_dec s s') as [->|]; [eauto|left; lia]. - destruct (Z.eq_dec s s') as [->|]; [eauto|left; lia]. }
    destruct KK as [KK|[KK|[(k & ->)|(k & ->)]]]; try (apply (kills 0 s' 0 a WW); auto; lia); exfalso.
    + unfold B2TDistKey.blk_of in EB. cbn [cols_of fst snd] in EB. destruct OKa as [(_ & X & _) _]. lia.
    + unfold B2TDistKey.blk_of in EB. cbn [cols_of fst snd] in EB. subst k. unfold B2TDistKey.lo_of, B2TDistKey.hi_of in La. cbn [cols_of fst snd] in La. unfold B2TDistModel.next_j in La. lia.
  - (* TriS *)
    assert (NT : forall i, a <> TriF i) by (intros i ->; unfold B2TDistSeq.klt in K; cbn [key] in K; lia).
    destruct (col_le a _ c c' SZ OKa OKb K CA CB EB La Lb NT E) as [LE EQ]. unfold B2TDistKey.lo_of in Lb at 1. unfold B2TDistKey.hi_of in Lb at 1. cbn [cols_of fst snd] in Lb.
    destruct OKb as [OKb _]. cbn [owner B2TDistStruct.tok] in OKb. cbn [pos owner] in BG. pose proof (W_init g G rdv deff m0 st R SZ s' OKb ltac:(lia)) as WW. change (blk_of (TriS s')) with 0 in *.
    assert (KK : swp a < s' \/ (exists j, a = Copy j) \/ (exists k, a = SendC s' k) \/ (exists k, a = RecvC s' k) \/ a = Init s').
    { unfold B2TDistSeq.klt in K. destruct a; try contradiction; cbn [key B2TDistKey.swp] in *; eauto; try lia. - destruct (Z.eq_dec s s') as [->|]; [eauto 10|left; lia]. - destruct (Z.eq_dec s s') as [->|]; [eauto 10|left; lia]. - destruct (Z.eq_dec s s') as [->|]; [eauto 10|left; lia]. }
    destruct KK as [KK|[KK|[(k & ->)|[(k & ->)| ->]]]]; try (apply (kills 0 s' 0 a WW); auto; lia).
    + exfalso. unfold B2TDistKey.blk_of in EB. cbn [cols_of fst snd] in EB. destruct OKa as [(_ & X & _) _]. lia.
    + exfalso. unfold B2TDistKey.blk_of in EB. cbn [cols_of fst snd] in EB. subst k. unfold B2TDistKey.lo_of, B2TDistKey.hi_of in La. cbn [cols_of fst snd] in La. unfold B2TDistModel.next_j in La. lia.
    + unfold actf. cbn [pos owner]. lia.
  - (* Step *)
    assert (NT : forall i, a <> TriF i) by (intros i ->; unfold B2TDistSeq.klt in K; cbn [key] in K; lia).
    destruct (col_le a _ c c' SZ OKa OKb K CA CB EB La Lb NT E) as [LE EQ]. pose proof (bounds _ c' SZ OKb CB Lb) as Bb. cbn [pos owner] in BG. pose proof (W_step g G rdv deff m0 st R SZ s' t' OKb BG) as WW. change (blk_of (Step s' t')) with (t' / spb) in *.
    unfold B2TDistKey.lo_of in Lb at 1. unfold B2TDistKey.hi_of in Lb at 1. cbn [cols_of fst snd] in Lb. destruct OKb as [[Ls' Lt'] _]. pose proof (kb g G t' ltac:(lia)) as (K0 & K1). set (k' := t' / spb) in *. cbn [B2TDistKey.swp] in Bb.
    assert (KK : swp a < s' \/ (exists j, a = Copy j) \/ swp a = s' /\ (forall j, a <> Copy j)).
    { unfold B2TDistSeq.klt in K. destruct a; try contradiction; cbn [key B2TDistKey.swp] in *; eauto; try lia; match goal with |- ?s < _ \/ _ => destruct (Z_lt_le_dec s s'); [left; lia|right; right; split; [lia|intros; discriminate]] end. }
    destruct KK as [KK|[KK|[KK NC]]]; try (apply (kills k' s' (t' + 1) a WW); auto; lia).
    destruct a as [j|s k|s k|s|s|s t|s t|s k|s k|i]; try contradiction; cbn [B2TDistKey.swp] in KK; try subst s.
    + exfalso. apply (NC j). reflexivity.
    + exfalso. unfold B2TDistKey.blk_of in EB, EQ. cbn [cols_of fst snd] in EB, EQ. subst k. pose proof (ncols_pos k'). unfold B2TDistKey.lo_of, B2TDistKey.hi_of in La. cbn [cols_of fst snd] in La. rewrite (nbb_e g G) in *. nia.
    + unfold B2TDistKey.blk_of in EB, EQ. cbn [cols_of fst snd] in EB, EQ. subst k. pose proof (ncols_pos k'). unfold B2TDistKey.lo_of, B2TDistKey.hi_of in La. cbn [cols_of fst snd] in La. unfold B2TDistModel.next_j in La. destruct OKa as [OKa _]. cbn [owner B2TDistStruct.tok] in OKa.
      unfold actf. cbn [pos owner]. assert (4 <= st @ (TRecvC s' k')); [|lia]. apply (col_needed g G rdv deff m0 st s' k' R OKa). assert (EC : c = c') by lia. assert (ET : (k' + 1) * spb - 1 = t') by (rewrite (nbb_e g G) in La; nia). rewrite ET. lia.
    + apply (fin_actf g G rdv deff st _ SZ OKa). apply (step_init g G rdv deff m0 st s' t' R Ls' Lt'). lia.
    + apply (fin_actf g G rdv deff st _ SZ OKa). apply (step_init g G rdv deff m0 st s' t' R Ls' Lt'). lia.
    + unfold B2TDistSeq.klt in K. cbn [key] in K. apply (fin_actf g G rdv deff st _ SZ OKa). destruct OKa as [[_ Lt] _]. apply (step_chain g G rdv deff m0 st s' t' t R Ls'); lia.
    + exfalso. apply (NT i). reflexivity.
  - (* TriF *)
    assert (NT : forall i, a <> TriF i) by (intros i ->; cbn [writes_cols] in WR; destruct WR; discriminate).
    destruct (col_le a _ c c' SZ OKa OKb K CA CB EB La Lb NT E) as [LE EQ]. pose proof (bounds _ c' SZ OKb CB Lb) as Bb. cbn [pos owner] in BG.
    assert (FF : fin st TFin) by (apply (join_at g G rdv deff m0 st R SZ (TTri i') 0); [apply OKb|reflexivity|lia]).
    pose proof (W_fin g G rdv deff m0 st R SZ FF) as WW. change (blk_of (TriF i')) with 0 in *.
    assert (KK : (0 <= swp a < sweeps) \/ exists j, a = Copy j).
    { destruct OKa as [OKa _]. destruct a; try contradiction; cbn [owner B2TDistStruct.tok B2TDistKey.swp] in *; eauto; try (left; lia); try (left; apply (cv_sweep g G _ _ OKa)). exfalso. eapply NT. reflexivity. }
    destruct KK as [KK|KK]; [rewrite Z.max_r in WW by lia; apply (kills 0 sweeps 0 a WW); auto; lia|].
    destruct (Z_le_gt_dec sweeps 0) as [NZ|NZ]; [|rewrite Z.max_r in WW by lia; apply (kills 0 sweeps 0 a WW); auto; lia].
    destruct KK as (j & ->). apply (fin_actf g G rdv deff st _ SZ OKa). rewrite Z.max_l in WW by lia. destruct OKa as [OKa _]. apply (proj2 WW); [exact OKa|exact EB|]. unfold B2TDistKey.lo_of in La at 1. cbn [cols_of fst snd] in La. pose proof (g_c g G). pose proof (g_c1 g G). assert (b <= nb) by nia. cbn [owner B2TDistStruct.tok] in OKa. assert (j * nb <= 1) by lia. assert (j = 0) by nia. subst j. lia.
Qed.

(** ** Workers *)
Lemma block_done : forall s k, 0 <= s < sweeps -> 0 <= k -> k * spb < steps s -> fin st (TStep s (last_step g s k)) ->
  (forall t, 0 <= t < steps s -> t / spb = k -> fin st (TStep s t)) /\ (k = 0 -> fin st (TInit s)) /\ (1 <= k -> fin st (TRecvW s k)) /\ fin st (wpred g s k).
Proof using G R SZ.
  intros s k Ls Lk A F. pose proof (spb1 g G). pose proof (last_range g G s k Lk A) as [LR1 LR2]. pose proof (step_len g rdv s (last_step g s k)) as SLen.
  assert (PC : 6 <= st @ (TStep s (last_step g s k))) by (rewrite (fin_pc g rdv deff st _ F); exact SLen).
  assert (S : forall t, 0 <= t < steps s -> t / spb = k -> fin st (TStep s t)).
  { intros t Lt E. pose proof (kb g G t ltac:(lia)) as (_ & K1). rewrite E in K1. destruct (Z.eq_dec t (last_step g s k)) as [->|N]; [exact F|]. apply (step_chain g G rdv deff m0 st s (last_step g s k) t R Ls); try lia. unfold last_step in *. lia. }
  assert (IN : fin st (TInit s)) by (apply (step_init g G rdv deff m0 st s (last_step g s k) R Ls LR2); lia).
  assert (RW : 1 <= k -> fin st (TRecvW s k)).
  { intros K. assert (F0 : fin st (TStep s (k * spb))) by (apply S; [nia|apply Z.div_mul; lia]). pose proof (step_len g rdv s (k * spb)). pose proof (step_prev_fin g G rdv deff m0 st s (k * spb) R Ls ltac:(nia) ltac:(rewrite (fin_pc g rdv deff st _ F0); lia)) as X.
    unfold step_prev in X. destruct (Z.eqb_spec (k * spb) 0); [nia|]. rewrite Z.mod_mul, Z.div_mul in X by lia. exact X. }
  repeat split; auto. destruct (Z.eq_dec k 0) as [->|NK].
  - apply (join_at g G rdv deff m0 st R SZ (TInit s) 0); [exact Ls|reflexivity|]. rewrite (fin_pc g rdv deff st _ IN). cbn [dprog app length]. lia.
  - assert (FR := RW ltac:(lia)). assert (OK : tok (TRecvW s k)) by (cbn; lia). assert (FP : fin st (TPostW s k)) by (apply (join_at g G rdv deff m0 st R SZ (TRecvW s k) 0); [exact OK|reflexivity|rewrite (fin_pc g rdv deff st _ FR); cbn; lia]).
    apply (join_at g G rdv deff m0 st R SZ (TPostW s k) 0); [exact OK|reflexivity|rewrite (fin_pc g rdv deff st _ FP); cbn; lia].
Qed.
Lemma wlast_step : forall s k, 0 <= s < sweeps -> 0 <= k -> k * spb < steps s -> fin st (wlast g s k) -> fin st (TStep s (last_step g s k)) /\ ((k + 1) * spb < steps s -> fin st (TSendW s k)).
Proof using G R SZ.
  intros s k Ls Lk A F. unfold wlast in F. destruct (Z.ltb_spec ((k + 1) * spb) (steps s)) as [C|C]; [|split; [exact F|lia]]. split; [|auto].
  apply (join_at g G rdv deff m0 st R SZ (TSendW s k) 0); [cbn; lia|reflexivity|rewrite (fin_pc g rdv deff st _ F); cbn; lia].
Qed.
Lemma wchain : forall s k s', 0 <= k -> 0 <= s < s' -> s' < sweeps -> k * spb < steps s' -> s mod wpt = s' mod wpt -> fin st (wpred g s' k) -> fin st (wlast g s k).
Proof using G R SZ.
  intros s k s' Lk Ls. revert Ls. pose proof (g_wpt g G) as WP. assert (S0 : 0 <= s \/ s < 0) by lia. destruct S0 as [S0|S0]; [|lia].
  assert (X : 0 <= s' \/ s' < 0) by lia. destruct X as [X|X]; [|lia]. pattern s'. apply Zlt_0_ind; [|exact X]. clear s' X. intros s' IH L0 Ls L1 A E F.
  assert (M : exists q, s' = s + q * wpt). { exists (s' / wpt - s / wpt). pose proof (Z.div_mod s wpt ltac:(lia)). pose proof (Z.div_mod s' wpt ltac:(lia)). lia. } destruct M as (q & EQ). assert (1 <= q) by nia.
  unfold wpred in F. destruct (Z.ltb_spec s' wpt) as [C|C]; [nia|]. destruct (Z.eq_dec s (s' - wpt)) as [->|N]; [exact F|].
  pose proof (steps_anti g G s' (s' - wpt) ltac:(lia) ltac:(lia)) as SA. destruct (wlast_step (s' - wpt) k ltac:(lia) Lk ltac:(lia) F) as [F1 _]. destruct (block_done (s' - wpt) k ltac:(lia) Lk ltac:(lia) F1) as (_ & _ & _ & FW).
  apply (IH (s' - wpt)); [lia|nia|lia|lia| |exact FW]. rewrite E. replace s' with (s' - wpt + 1 * wpt) at 1 by lia. apply Z.mod_add. lia.
Qed.
Lemma wk_active : forall a k w, act_ok a -> worker_of g a = Some (k, w) -> 0 <= swp a < sweeps /\ 0 <= k /\ k * spb < steps (swp a) /\ w = swp a mod wpt.
Proof using G.
  intros a k w [OK _] E. pose proof (spb1 g G). destruct a as [j|s k'|s k'|s|s|s t|s t|s k'|s k'|i]; try discriminate; cbn [worker_of owner B2TDistStruct.tok B2TDistKey.swp] in *; inversion E; subst.
  - pose proof (steps_pos g G s OK). lia.
  - destruct OK as [Ls Lt]. pose proof (kb g G t ltac:(lia)). lia.
  - destruct OK as [Ls Lt]. pose proof (kb g G t ltac:(lia)). lia.
  - destruct OK as (Ls & Lk & A). nia.
  - lia.
Qed.
Theorem worker_key : forall a b' k w, act_ok a -> act_ok b' -> pos b' <= st @ (owner b') -> klt a b' -> worker_of g a = Some (k, w) -> worker_of g b' = Some (k, w) -> actf st a.
Proof using G R SZ.
  intros a b' k w OKa OKb BG K Wa Wb. pose proof (spb1 g G) as S1. destruct (wk_active a k w OKa Wa) as (Ls & Lk & Aa & Ea). destruct (wk_active b' k w OKb Wb) as (Ls' & _ & Ab & Eb).
  assert (USE : (forall t, 0 <= t < steps (swp a) -> t / spb = k -> fin st (TStep (swp a) t)) -> (k = 0 -> fin st (TInit (swp a))) -> (1 <= k -> fin st (TRecvW (swp a) k)) -> ((k + 1) * spb < steps (swp a) -> (forall s, a = SendW s k -> fin st (TSendW s k))) -> actf st a).
  { intros U1 U2 U3 U4. apply (fin_actf g G rdv deff st _ SZ OKa). destruct OKa as [OKa _]. destruct a as [j|s k'|s k'|s|s|s t|s t|s k'|s k'|i]; try discriminate; cbn [worker_of owner B2TDistStruct.tok B2TDistKey.swp] in *; inversion Wa; subst.
    - apply U2. reflexivity.
    - apply U1; [apply OKa|reflexivity].
    - apply U1; [apply OKa|reflexivity].
    - apply U4; [lia|reflexivity].
    - apply U3. lia. }
  assert (SS : swp a < swp b' \/ swp a = swp b').
  { pose proof (klt_swp a b' OKa OKb K). lia. }
  (* the worker has been handed over to the sweep of b' *)
  assert (OWN : fin st (wpred g (swp b') k)).
  { assert (ST : forall s t, 0 <= s < sweeps -> 0 <= t < steps s -> 1 <= st @ (TStep s t) -> fin st (wpred g s (t / spb))).
    { intros s t Lsx Lt PC. pose proof (kb g G t ltac:(lia)) as (K0 & K1). set (kk := t / spb) in *. destruct (Z.eq_dec kk 0) as [E0|N0].
      - rewrite E0. assert (IN : fin st (TInit s)) by (apply (step_init g G rdv deff m0 st s t R Lsx Lt); lia). apply (join_at g G rdv deff m0 st R SZ (TInit s) 0); [exact Lsx|reflexivity|]. rewrite (fin_pc g rdv deff st _ IN). cbn [dprog app length]. lia.
      - assert (P0 : 1 <= st @ (TStep s (kk * spb))). { destruct (Z.eq_dec t (kk * spb)) as [E|N]; [rewrite <- E; exact PC|]. pose proof (step_chain g G rdv deff m0 st s t (kk * spb) R Lsx ltac:(nia) ltac:(lia) PC) as F. rewrite (fin_pc g rdv deff st _ F). pose proof (step_len g rdv s (kk * spb)). lia. }
        pose proof (step_prev_fin g G rdv deff m0 st s (kk * spb) R Lsx ltac:(nia) P0) as X. unfold step_prev in X. destruct (Z.eqb_spec (kk * spb) 0); [nia|]. rewrite Z.mod_mul, Z.div_mul in X by lia.
        assert (OK : tok (TRecvW s kk)) by (cbn; lia). assert (FP : fin st (TPostW s kk)) by (apply (join_at g G rdv deff m0 st R SZ (TRecvW s kk) 0); [exact OK|reflexivity|rewrite (fin_pc g rdv deff st _ X); cbn; lia]).
        apply (join_at g G rdv deff m0 st R SZ (TPostW s kk) 0); [exact OK|reflexivity|rewrite (fin_pc g rdv deff st _ FP); cbn; lia]. }
    destruct OKb as [OKb _]. destruct b' as [j|s k'|s k'|s|s|s t|s t|s k'|s k'|i]; try discriminate; cbn [worker_of owner pos B2TDistStruct.tok B2TDistKey.swp] in *; inversion Wb; subst.
    - apply (join_at g G rdv deff m0 st R SZ (TInit s) 0); [exact OKb|reflexivity|lia].
    - apply ST; [apply OKb|apply OKb|lia].
    - apply ST; [apply OKb|apply OKb|lia].
    - assert (F : fin st (TStep s (last_step g s k))) by (apply (join_at g G rdv deff m0 st R SZ (TSendW s k) 0); [exact OKb|reflexivity|lia]). apply (block_done s k); [lia|lia|lia|exact F].
    - assert (F : fin st (TPostW s k)) by (apply (join_at g G rdv deff m0 st R SZ (TRecvW s k) 0); [exact OKb|reflexivity|lia]). apply (join_at g G rdv deff m0 st R SZ (TPostW s k) 0); [exact OKb|reflexivity|rewrite (fin_pc g rdv deff st _ F); cbn; lia]. }
  destruct SS as [SS|SS].
  - assert (F : fin st (wlast g (swp a) k)) by (apply (wchain (swp a) k (swp b')); [lia|lia|lia|exact Ab|congruence|exact OWN]).
    destruct (wlast_step _ _ Ls Lk Aa F) as [F1 F2]. destruct (block_done _ _ Ls Lk Aa F1) as (B1 & B2 & B3 & _). apply USE; auto. intros C s ->. apply F2. exact C.
  - destruct b' as [j|s' k'|s' k'|s'|s'|s' t'|s' t'|s' k'|s' k'|i']; try discriminate; destruct OKb as [OKb _]; cbn [worker_of owner pos B2TDistStruct.tok B2TDistKey.swp] in *; injection Wb as EKb EWb; first [subst k' | subst k].
    + exfalso. unfold B2TDistSeq.klt in K. destruct a; try discriminate; cbn [key B2TDistKey.swp] in *; lia.
    + destruct OKb as [_ Lt']. pose proof (kb g G t' ltac:(lia)) as (K0 & K1). unfold B2TDistSeq.klt in K. destruct a as [j|s k|s k|s|s|s t|s t|s k|s k|i]; try discriminate; cbn [worker_of key B2TDistKey.swp] in *; subst s; inversion Wa as [EK]; clear Wa.
      * apply (fin_actf g G rdv deff st _ SZ OKa). apply (step_init g G rdv deff m0 st s' t' R Ls' Lt'). lia.
      * apply (fin_actf g G rdv deff st _ SZ OKa). destruct OKa as [[_ Lt] _]. apply (step_chain g G rdv deff m0 st s' t' t R Ls'); lia.
      * apply (fin_actf g G rdv deff st _ SZ OKa). destruct OKa as [[_ Lt] _]. apply (step_chain g G rdv deff m0 st s' t' t R Ls'); lia.
      * exfalso. nia.
      * subst k. apply (fin_actf g G rdv deff st _ SZ OKa). cbn [owner]. destruct OKa as [(_ & OK1 & OK2) _]. set (kk := t' / spb) in *.
        assert (P0 : 1 <= st @ (TStep s' (kk * spb))). { destruct (Z.eq_dec t' (kk * spb)) as [E|N]; [rewrite <- E; lia|]. pose proof (step_chain g G rdv deff m0 st s' t' (kk * spb) R Ls' ltac:(nia) ltac:(lia) ltac:(lia)) as F. rewrite (fin_pc g rdv deff st _ F). pose proof (step_len g rdv s' (kk * spb)). lia. }
        pose proof (step_prev_fin g G rdv deff m0 st s' (kk * spb) R Ls' ltac:(nia) P0) as X. unfold step_prev in X. destruct (Z.eqb_spec (kk * spb) 0); [nia|]. rewrite Z.mod_mul, Z.div_mul in X by lia. exact X.
    + destruct OKb as [_ Lt']. pose proof (kb g G t' ltac:(lia)) as (K0 & K1). unfold B2TDistSeq.klt in K. destruct a as [j|s k|s k|s|s|s t|s t|s k|s k|i]; try discriminate; cbn [worker_of key B2TDistKey.swp] in *; subst s; inversion Wa as [EK]; clear Wa.
      * apply (fin_actf g G rdv deff st _ SZ OKa). apply (step_init g G rdv deff m0 st s' t' R Ls' Lt'). lia.
      * destruct (Z.eq_dec t t') as [->|NT]; [unfold actf; cbn [pos owner]; lia|]. apply (fin_actf g G rdv deff st _ SZ OKa). destruct OKa as [[_ Lt] _]. apply (step_chain g G rdv deff m0 st s' t' t R Ls'); lia.
      * apply (fin_actf g G rdv deff st _ SZ OKa). destruct OKa as [[_ Lt] _]. apply (step_chain g G rdv deff m0 st s' t' t R Ls'); lia.
      * exfalso. nia.
      * subst k. apply (fin_actf g G rdv deff st _ SZ OKa). cbn [owner]. destruct OKa as [(_ & OK1 & OK2) _]. set (kk := t' / spb) in *.
        assert (P0 : 1 <= st @ (TStep s' (kk * spb))). { destruct (Z.eq_dec t' (kk * spb)) as [E|N]; [rewrite <- E; lia|]. pose proof (step_chain g G rdv deff m0 st s' t' (kk * spb) R Ls' ltac:(nia) ltac:(lia) ltac:(lia)) as F. rewrite (fin_pc g rdv deff st _ F). pose proof (step_len g rdv s' (kk * spb)). lia. }
        pose proof (step_prev_fin g G rdv deff m0 st s' (kk * spb) R Ls' ltac:(nia) P0) as X. unfold step_prev in X. destruct (Z.eqb_spec (kk * spb) 0); [nia|]. rewrite Z.mod_mul, Z.div_mul in X by lia. exact X.
    + assert (F : fin st (TStep s' (last_step g s' k))) by (apply (join_at g G rdv deff m0 st R SZ (TSendW s' k) 0); [exact OKb|reflexivity|lia]). rewrite SS in *. destruct (block_done s' k Ls' Lk Aa F) as (B1 & B2 & B3 & _). apply USE; auto. intros C s ->. cbn [B2TDistKey.swp] in SS. subst s. exfalso. apply (klt_irr _ _ K).
    + exfalso. unfold B2TDistSeq.klt in K. destruct a as [j|s k0|s k0|s|s|s t|s t|s k0|s k0|i]; try discriminate; cbn [worker_of key B2TDistKey.swp] in *; inversion Wa; subst; try nia. 
      * destruct OKa as [[_ Lt] _]. pose proof (kb g G t ltac:(lia)). lia.
      * destruct OKa as [[_ Lt] _]. pose proof (kb g G t ltac:(lia)). lia.
Qed.
End state.

(** ** Conflicting actions are ordered *)
Theorem b2td_key : forall st a b', reach st -> begun P st b' -> act_ok a -> klt a b' -> sconflict P a b' -> finished_act P st a.
Proof using G.
  intros st a b' R BG OKa K (l & C). destruct (begun_pos g G rdv deff st b' BG) as (SZ & OKb & PB). apply (actf_fin g G rdv deff st a SZ OKa).
  pose proof (join_at g G rdv deff m0 st R SZ) as J.
  cbn [rd wr b2td] in C. destruct l as [k i|k w|s k|s k|s t|i]; cbn [drd dwr] in C.
  - assert (H : touches g a k i = true /\ touches g b' k i = true /\ (writes_cols a = true \/ writes_cols b' = true)).
    { rewrite !andb_true_iff in C. tauto. }
    destruct H as (Ta & Tb & WR). apply touch in Ta as (CA & BA & c & La & Ec). apply touch in Tb as (CB & BB & c' & Lb & Ec').
    apply (col_key st R SZ a b' c c' OKa OKb PB K CA CB); auto; congruence.
  - assert (H : uses_worker g a k w = true /\ uses_worker g b' k w = true).
    { rewrite !andb_true_iff in C. tauto. }
    destruct H as (Ua & Ub). unfold uses_worker in Ua, Ub. destruct (worker_of g a) as [[ka wa]|] eqn:Wa; [|discriminate]. destruct (worker_of g b') as [[kb' wb]|] eqn:Wb; [|discriminate]. apply andb_prop in Ua as [U1 U2]. apply andb_prop in Ub as [U3 U4]. apply Z.eqb_eq in U1, U2, U3, U4. subst.
    apply (worker_key st R SZ a b' _ _ OKa OKb PB K Wa Wb).
  - assert (H : (exists s' k', a = SendC s' k' \/ a = RecvC s' k') /\ True) by (split; [|exact I]; destruct a; try (exfalso; destruct C as [[C1 C2]|[C1 C2]]; congruence); eauto).
    destruct a as [j|sa ka|sa ka|sa|sa|sa ta|sa ta|sa ka|sa ka|ia]; try (exfalso; destruct C as [[C1 C2]|[C1 C2]]; congruence); destruct b' as [j'|sb kb'|sb kb'|sb|sb|sb tb'|sb tb'|sb kb'|sb kb'|ib]; try (exfalso; destruct C as [[C1 [C2|C2]]|[C1 C2]]; congruence); unfold B2TDistSeq.klt in K; cbn [key] in K.
    + exfalso. lia.
    + assert (E : sa = sb /\ ka = kb' + 1) by lia. destruct E as [-> ->]. destruct OKb as [OKb _]. cbn [owner B2TDistStruct.tok pos] in *. apply (fin_actf g G rdv deff st _ SZ OKa). apply (J (TRecvC sb kb') 1%nat); [exact OKb|reflexivity|lia].
    + exfalso. lia.
  - destruct a as [j|sa ka|sa ka|sa|sa|sa ta|sa ta|sa ka|sa ka|ia]; try (exfalso; destruct C as [[C1 C2]|[C1 C2]]; congruence); destruct b' as [j'|sb kb'|sb kb'|sb|sb|sb tb'|sb tb'|sb kb'|sb kb'|ib]; try (exfalso; destruct C as [[C1 [C2|C2]]|[C1 C2]]; congruence); unfold B2TDistSeq.klt in K; cbn [key] in K.
    + exfalso. assert (sa = sb /\ ka = kb') by lia. destruct H as [-> ->]. lia.
    + assert (E : sa = sb /\ ka = kb' - 1) by lia. destruct E as [-> ->]. destruct OKb as [OKb _]. cbn [owner B2TDistStruct.tok pos] in *. apply (fin_actf g G rdv deff st _ SZ OKa). apply (J (TRecvW sb kb') 1%nat); [exact OKb|reflexivity|lia].
    + exfalso. assert (sa = sb /\ ka = kb' - 1) by lia. destruct H as [-> ->]. replace (kb' - 1 + 1) with kb' in K by lia. lia.
  - exfalso. destruct a as [j|sa ka|sa ka|sa|sa|sa ta|sa ta|sa ka|sa ka|ia]; try (exfalso; destruct C as [[C1 C2]|[C1 C2]]; congruence); destruct b' as [j'|sb kb'|sb kb'|sb|sb|sb tb'|sb tb'|sb kb'|sb kb'|ib]; try (exfalso; destruct C as [[C1 [C2|C2]]|[C1 C2]]; congruence); unfold B2TDistSeq.klt in K; cbn [key] in K. lia.
  - destruct a as [j|sa ka|sa ka|sa|sa|sa ta|sa ta|sa ka|sa ka|ia]; try (exfalso; destruct C as [[C1 C2]|[C1 C2]]; congruence); destruct b' as [j'|sb kb'|sb kb'|sb|sb|sb tb'|sb tb'|sb kb'|sb kb'|ib]; try (exfalso; destruct C as [[C1 [C2|C2]]|[C1 C2]]; congruence); unfold B2TDistSeq.klt in K; cbn [key] in K.
    + exfalso. pose proof (g_nb g G). destruct OKa as [La Ma], OKb as [Lb Mb]. cbn in La, Lb. assert (E : sa / nb = sb / nb) by lia. pose proof (Z.div_mod (sa + 1) nb ltac:(lia)). pose proof (Z.div_mod (sb + 1) nb ltac:(lia)). pose proof (Z.div_mod sa nb ltac:(lia)). pose proof (Z.div_mod sb nb ltac:(lia)). pose proof (Z.mod_pos_bound sa nb ltac:(lia)). pose proof (Z.mod_pos_bound sb nb ltac:(lia)).
      set (x := (sa + 1) / nb) in *. set (y := (sb + 1) / nb) in *. set (qa := sa / nb) in *. set (qb := sb / nb) in *. assert (x = qa + 1) by nia. assert (y = qb + 1) by nia. nia.
    + apply (fin_actf g G rdv deff st _ SZ OKa). destruct OKa as [OKa _]. cbn [owner B2TDistStruct.tok pos] in *. assert (FF : fin st TFin) by (apply (J (TTri ib) 0%nat); [apply OKb|reflexivity|lia]).
      pose proof (W_fin g G rdv deff m0 st R SZ FF) as WW. rewrite Z.max_r in WW by lia. apply (F_init g G rdv deff m0 st R SZ sa (0 + (sweeps - sa))); [apply (proj1 WW); lia|exact OKa|lia].
    + exfalso. lia.
    + apply (fin_actf g G rdv deff st _ SZ OKa). destruct OKa as [OKa _], OKb as [OKb _]. cbn [owner B2TDistStruct.tok pos] in *. assert (E : ib = size /\ ia = size - 1 /\ m_cplx g = false) by (destruct OKb as [EB|[EB _]], OKa as [EA|[EA CX]]; first [exfalso; lia | auto]). destruct E as (-> & -> & CX). assert (ET : tri_tile g (size - 1) = tri_tile g size) by lia.
      apply (J (TTri size) 1%nat); [exact OKb| |lia]. cbn [dprog nth_error]. rewrite Z.eqb_refl, CX, ET, Z.eqb_refl. reflexivity.
Qed.

(** ** The main theorem *)
Theorem b2td_all : (forall a, In a (dseq g) -> framed P a) -> every_execution dthread_eq P m0 (fun m => forall l, m l = srun P (dseq g) m0 l).
Proof using G.
  intros FR.
  assert (CIN : forall a, In a (dseq g) <-> exists t, In t (threads P) /\ In (IAct a) (prog P t)).
  { intros a. rewrite (in_seq g G). split.
    - intros [SZ OK]. destruct (act_at g G rdv a SZ OK) as [It E]. exists (owner a). split; [exact It|]. eapply nth_error_In. exact E.
    - intros (t & It & Ia). apply In_nth_error in Ia as (i & Ei). destruct (act_pos g G rdv t i a It Ei) as (_ & _ & OK). split; [|exact OK]. apply (in_threads g G) in It. tauto. }
  assert (ND : NoDup (dseq g)) by (eapply sorted_nodup; [apply (klt_irr g)|apply (seq_sorted g G)]).
  pose proof (occ g G rdv) as OCC.
  assert (KEY : forall st a b', reach st -> begun P st b' -> before (dseq g) a b' -> sconflict P a b' -> finished_act P st a).
  { intros st a b' R BG BF C. assert (Ia : In a (dseq g)). { destruct BF as (l1 & l2 & E & _). rewrite E. apply in_or_app. right. left. reflexivity. }
    apply (in_seq g G) in Ia. apply (b2td_key st a b' R BG); [tauto| |exact C]. eapply sorted_before; [|exact BF]. apply (seq_sorted g G). }
  split.
  - intros st R. split; [|split].
    + eapply no_race; eassumption.
    + apply (b2td_progress g G rdv deff m0 st R).
    + eapply terminates; [|exact R]. apply (threads_nodup g G).
  - intros st R FN l. eapply final_memory; eassumption.
Qed.
End final.
