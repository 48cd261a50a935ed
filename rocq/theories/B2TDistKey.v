(** * Distributed band_to_tridiagonal: actions on the same memory are ordered. *)
From Coq Require Import ZArith Lia List Bool Sorting.Sorted.
From Verif Require Import Loop HouseModel DistGrid DistMat B2TMsgModel B2TMsgSpec B2TMsgProofs B2TSched SemModel SemProofs Reorder B2TDistModel B2TDistStruct B2TDistOrder B2TDistProgress B2TDistSeq.
Import ListNotations.
Local Open Scope Z_scope.

Section key.
Variable g : msg_cfg.
Hypothesis G : cfg_ok g.
Variable rdv : dthread -> bool.
Context {V : Type}.
Variable deff : dact -> (dloc -> V) -> dloc -> V.
Variable m0 : dloc -> V.
Notation size := (m_size g).
Notation nb := (m_nb g).
Notation b := (m_b g).
Notation nbb := (nb_band g).
Notation spb := (steps_per_block g).
Notation tpb := (tiles_per_block g).
Notation wpt := (workers_per_tile g).
Notation steps := (steps g).
Notation sweeps := (sweeps g).
Notation next_j := (next_j g).
Notation cv := (cv g).
Notation tok := (tok g).
Notation P := (b2td g rdv deff).
Notation reach := (sreach dthread_eq P m0).
Notation state := (sstate dthread dloc V).
Notation ths := (dthreads g).
Notation fin := (finished P).
Notation "st @ t" := (Z.of_nat (pc st t)) (at level 10, t at next level).
Notation facq := (facq g). Notation sacq := (sacq g).
Notation D := (D g).
Notation act_ok := (act_ok g).
Notation klt := (klt g).

Definition actf (st : state) (a : dact) : Prop := pos a < st @ (owner a).
Lemma actf_fin : forall st a, 0 < size -> act_ok a -> actf st a -> finished_act P st a.
Proof using G. intros st a SZ OK L. destruct (act_at g G rdv a SZ OK) as [It E]. exists (owner a), (Z.to_nat (pos a)). split; [exact It|]. split; [exact E|]. unfold actf in L. pose proof (pos0 a). lia. Qed.
Lemma begun_pos : forall st a, begun P st a -> 0 < size /\ act_ok a /\ pos a <= st @ (owner a).
Proof using G.
  intros st a [(t & i & It & E & L)|(t & It & E & _)].
  - assert (SZ : 0 < size) by (apply (in_threads g G) in It; tauto). destruct (act_pos g G rdv t i a It E) as (-> & <- & OK). split; [exact SZ|]. split; [exact OK|]. lia.
  - assert (SZ : 0 < size) by (apply (in_threads g G) in It; tauto). unfold cur in E. destruct (act_pos g G rdv t _ a It E) as (-> & E2 & OK). split; [exact SZ|]. split; [exact OK|]. lia.
Qed.
Lemma fin_actf : forall st a, 0 < size -> act_ok a -> fin st (owner a) -> actf st a.
Proof using G.
  intros st a SZ OK F. destruct (act_at g G rdv a SZ OK) as [It E]. unfold actf. unfold finished in F. rewrite F. assert (L : (Z.to_nat (pos a) < length (dprog g rdv (owner a)))%nat) by (apply nth_error_Some; rewrite E; discriminate). pose proof (pos0 a). cbn [prog b2td]. lia.
Qed.

Section state.
Variable st : state.
Hypothesis R : reach st.
Hypothesis SZ : 0 < size.
Lemma join_at : forall t i u, tok t -> nth_error (dprog g rdv t) i = Some (IJoin u) -> Z.of_nat i < st @ t -> fin st u.
Proof using G R SZ. intros t i u OK E L. apply (jn g G rdv deff m0 st t i u R SZ OK E L). Qed.
Lemma acq_pos : forall t o, tok t -> facq o t (st @ t) = 1 -> 1 <= sacq st o.
Proof using G SZ.
  intros t o OK E. rewrite <- E. apply (zsum_ge1 (fun t => facq o t (st @ t))); [apply (in_threads g G); auto|]. intros u _. apply (facq_nonneg g).
Qed.

(** ** What follows from the steps that are done *)
Lemma F_send : forall s u k, D st s u -> cv s (k - 1) -> k * spb <= u -> fin st (TSendC s k).
Proof using G R SZ.
  intros s u k H C L. pose proof (cv_full g G _ _ C) as CF. replace (k - 1 + 1) with k in CF by lia. pose proof (spb1 g G). assert (K1 : 1 <= k) by (assert (0 <= k - 1) by apply C; lia).
  assert (A : 4 <= st @ (TRecvC s (k - 1))). { apply (col_needed g G rdv deff m0 st s (k - 1) R C). replace (k - 1 + 1) with k by lia. assert (5 <= st @ (TStep s (k * spb - 1))); [apply H; nia|lia]. }
  replace k with (k - 1 + 1) by lia. apply (join_at (TRecvC s (k - 1)) 1); [exact C|reflexivity|lia].
Qed.
Lemma F_recv : forall s u k, D st s u -> cv s k -> (k + 1) * spb <= u -> 4 <= st @ (TRecvC s k).
Proof using G R SZ.
  intros s u k H C L. pose proof (cv_full g G _ _ C) as CF. pose proof (spb1 g G). assert (0 <= k) by apply C.
  apply (col_needed g G rdv deff m0 st s k R C). assert (5 <= st @ (TStep s ((k + 1) * spb - 1))); [apply H; nia|lia].
Qed.
Lemma F_init : forall s u, D st s u -> 0 <= s < sweeps -> 1 <= u -> fin st (TInit s).
Proof using G R SZ.
  intros s u H Ls L. pose proof (steps_pos g G s Ls). apply (step_init g G rdv deff m0 st s 0 R Ls ltac:(lia)). assert (5 <= st @ (TStep s 0)); [apply H; lia|lia].
Qed.
(** all the sweeps before s', up to a front that advances by one step from a sweep to the preceding one *)
Definition W (k s' u : Z) : Prop :=
  (forall s, 0 <= s < s' -> s < sweeps -> D st s (u + (s' - s))) /\
  (forall j, 0 <= j < ntl g -> j / tpb = k -> j * nb <= (u + s') * b -> fin st (TCopy j)).
Lemma W_of_D : forall k s' u, 1 <= s' -> s' <= sweeps -> 0 <= u -> D st (s' - 1) (u + 1) -> W k s' u.
Proof using G R SZ.
  intros k s' u L1 L2 Lu H. assert (A : forall s, 0 <= s < s' -> D st s (u + (s' - s))).
  { intros s Ls. replace (u + (s' - s)) with (u + 1 + (s' - 1 - s)) by lia. apply (D_down g G rdv deff m0 st (s' - 1) (u + 1) s R); try lia. exact H. }
  split; [intros s Ls _; apply A; exact Ls|]. intros j Lj _ LE. specialize (A 0 ltac:(lia)). apply (D_copy g G rdv deff m0 st (u + (s' - 0)) j R); try lia. exact A.
Qed.
Lemma W_zero : forall k u, 0 <= k -> (u + 1) * b <= k * nbb + sacq st (sid g 0 k) * b -> W k 0 u.
Proof using G R SZ.
  intros k u Lk H. split; [intros; lia|]. intros j Lj E LE. pose proof (g_c g G) as EC. pose proof (g_c1 g G) as C1. pose proof (g_b g G) as HB. pose proof (tb g G j ltac:(lia)) as (_ & TB). rewrite E in TB.
  apply (acq0_copy g G rdv deff m0 st k j R Lk); [lia|lia|]. rewrite (nbb_t g G) in H. set (c := nb / b) in *. assert (j * nb = j * c * b) by (rewrite EC; ring). assert (k * tpb * nb = k * tpb * c * b) by (rewrite EC; ring). nia.
Qed.
(** the first sweep of an action *)
Definition swp (a : dact) : Z :=
  match a with Copy _ => -1 | SendC s _ | RecvC s _ | Init s | TriS s | SaveV s _ | Step s _ | SendW s _ | RecvW s _ => s | TriF _ => sweeps end.
Definition lo_of (a : dact) : Z := snd (fst (cols_of g a)).
Definition hi_of (a : dact) : Z := snd (cols_of g a).
Definition blk_of (a : dact) : Z := fst (fst (cols_of g a)).
Definition colact (a : dact) : Prop := match a with SaveV _ _ | SendW _ _ | RecvW _ _ => False | _ => True end.
Lemma W_kills : forall k s' u a, W k s' u -> 0 <= u -> 0 <= s' -> act_ok a -> colact a -> blk_of a = k -> lo_of a <= s' + u * b + 1 -> swp a < s' \/ (exists j, a = Copy j) -> s' <= sweeps -> actf st a.
Proof using G R SZ.
  intros k s' u a [W1 W2] Lu Ls OK CA BK LO SW LS. pose proof (g_b g G) as HB. pose proof (spb1 g G) as S1.
  destruct a as [j|s k'|s k'|s|s|s t|s t|s k'|s k'|i]; try contradiction; unfold blk_of, lo_of in *; cbn [cols_of fst snd swp] in *; destruct OK as [OK X]; cbn [owner B2TDistStruct.tok] in OK.
  - apply fin_actf; [exact SZ|split; assumption|]. apply W2; [exact OK|exact BK|].
    pose proof (g_c g G) as EC. assert (j * nb = j * (nb / b) * b) by (rewrite EC at 1; ring). set (x := j * (nb / b)) in *. destruct (Z.eq_dec s' 0) as [->|N]; [|assert (s' * 2 <= s' * b) by nia; lia]. assert (x <= u) by nia. nia.
  - destruct SW as [SW|(j & E)]; [|discriminate]. assert (0 <= s) by apply OK. subst k'. apply fin_actf; [exact SZ|split; assumption|]. apply (F_send s (u + (s' - s)) k); [apply W1; lia|exact OK|]. rewrite (nbb_e g G) in LO. nia.
  - destruct SW as [SW|(j & E)]; [|discriminate]. assert (0 <= s) by apply OK. subst k'. unfold actf. cbn [pos owner]. assert (4 <= st @ (TRecvC s k)); [|lia]. apply (F_recv s (u + (s' - s)) k); [apply W1; lia|exact OK|]. unfold B2TDistModel.next_j in LO. rewrite (nbb_e g G) in LO. nia.
  - destruct SW as [SW|(j & E)]; [|discriminate]. apply fin_actf; [exact SZ|split; assumption|]. apply (F_init s (u + (s' - s))); [apply W1; lia|exact OK|lia].
  - destruct SW as [SW|(j & E)]; [|discriminate]. apply fin_actf; [exact SZ|split; assumption|]. apply (F_init s (u + (s' - s))); [apply W1; lia|exact OK|lia].
  - destruct SW as [SW|(j & E)]; [|discriminate]. unfold actf. cbn [pos owner]. assert (5 <= st @ (TStep s t)); [|lia]. apply (W1 s ltac:(lia) ltac:(lia)); [lia|nia].
  - exfalso. destruct SW as [SW|(j & E)]; [lia|discriminate].
Qed.

(** ** What is done when an action has begun *)
Lemma W_step : forall s t, act_ok (Step s t) -> 4 <= st @ (TStep s t) -> W (t / spb) s (t + 1).
Proof using G R SZ.
  intros s t [[Ls Lt] _] L. destruct (Z.eq_dec s 0) as [->|N].
  - pose proof (kb g G t ltac:(lia)) as (K0 & K1). apply W_zero; [exact K0|]. pose proof (acq_lower g G rdv deff m0 st 0 t R Ls Lt L) as A. pose proof (g_b g G). rewrite (nbb_e g G). nia.
  - apply W_of_D; try lia. pose proof (D_step g G rdv deff m0 st (s - 1) t R ltac:(lia)) as H. replace (s - 1 + 1) with s in H by lia. replace (t + 1 + 1) with (t + 2) by lia. apply H; try lia.
Qed.
Lemma W_recv : forall s k, cv s k -> 2 <= st @ (TRecvC s k) -> W k s ((k + 1) * spb - 1).
Proof using G R SZ.
  intros s k C L. pose proof (spb1 g G) as S1. assert (K0 : 0 <= k) by apply C. pose proof (cv_sweep g G s k C) as Ls. assert (F : fin st (col_dep g s k)).
  { assert (F : fin st (TPostC s k)) by (apply (join_at (TRecvC s k) 0); [exact C|reflexivity|lia]). apply (join_at (TPostC s k) 0); [exact C|reflexivity|]. rewrite (fin_pc g rdv deff st _ F). cbn. lia. }
  unfold col_dep in F. destruct (Z.eqb_spec s 0) as [->|N].
  - split; [intros; lia|]. intros j Lj E LE. pose proof (tb g G j ltac:(lia)) as (_ & TB). rewrite E in TB. pose proof (cv0_full g G 0 k C). pose proof (tpb1 g G). rewrite Z.min_l in F by lia.
    assert (FR : fin st (TRel j)). { destruct (Z.eq_dec j ((k + 1) * tpb - 1)) as [->|]; [exact F|]. apply (rel_chain g G rdv deff m0 st k ((k + 1) * tpb - 1) j R); try lia. exact F. }
    apply (rel_copy g G rdv deff m0 st j R Lj). rewrite (fin_pc g rdv deff st _ FR). cbn. lia.
  - assert (C' : cv (s - 1) k) by (destruct C as (C1 & C2 & C3); unfold B2TDistStruct.cv, B2TDistModel.next_j in *; lia). rewrite (last_cv g G _ _ C') in F. pose proof (cv_full g G _ _ C') as CF.
    apply W_of_D; [lia|lia|nia|]. apply (D_of g G rdv deff m0 st (s - 1) _ R); [lia|nia|]. pose proof (step_len g rdv (s - 1) ((k + 1) * spb - 1)). rewrite (fin_pc g rdv deff st _ F). lia.
Qed.
Lemma W_init : forall s, 0 <= s < sweeps -> 2 <= st @ (TInit s) -> W 0 s 0.
Proof using G R SZ.
  intros s Ls L. pose proof (g_b g G). destruct (Z.eq_dec s 0) as [->|N].
  - apply W_zero; [lia|]. assert (1 <= sacq st (sid g 0 0)); [|nia]. apply (acq_pos (TInit 0)); [exact Ls|]. cbn [B2TDistOrder.facq]. destruct (Z.leb_spec 2 (st @ (TInit 0))); [|lia]. rewrite Z.eqb_refl. reflexivity.
  - apply W_of_D; try lia. pose proof (init_D g G rdv deff m0 st (s - 1) R ltac:(lia)) as H1. replace (s - 1 + 1) with s in H1 by lia. apply H1; [lia|exact L].
Qed.
Lemma W_send : forall s k, cv s (k - 1) -> 1 <= st @ (TAcq s k) -> W k (Z.min s (last_sem g k)) (k * spb).
Proof using G R SZ.
  intros s k C L. assert (K1 : 1 <= k) by (assert (0 <= k - 1) by apply C; lia). pose proof (spb1 g G). pose proof (g_b g G). pose proof (cv_sweep g G _ _ C) as Ls. assert (OL : 0 <= last_sem g k) by (unfold last_sem; lia).
  destruct (Z.eq_dec (Z.min s (last_sem g k)) 0) as [E|N].
  - rewrite E. apply W_zero; [lia|]. assert (1 <= sacq st (sid g 0 k)); [|rewrite (nbb_e g G); nia]. apply (acq_pos (TAcq s k)); [exact C|]. cbn [B2TDistOrder.facq]. rewrite E. destruct (Z.leb_spec 1 (st @ (TAcq s k))); [|lia]. rewrite Z.eqb_refl. reflexivity.
  - apply W_of_D; [lia|lia|nia|]. apply (acq1_D g G rdv deff m0 st s k R C L). lia.
Qed.
Lemma W_fin : fin st TFin -> W 0 (Z.max 0 sweeps) 0.
Proof using G R SZ.
  intros F. pose proof (g_b g G). assert (A : 1 <= sacq st (sid g (Z.max 0 sweeps) 0)).
  { apply (acq_pos TFin); [exact I|]. cbn [B2TDistOrder.facq]. rewrite (fin_pc g rdv deff st _ F). cbn [dprog length]. change (1 <=? Z.of_nat 1) with true. rewrite Z.eqb_refl. reflexivity. }
  destruct (Z_le_gt_dec sweeps 0) as [E|N].
  - rewrite Z.max_l in * by lia. apply W_zero; [lia|nia].
  - rewrite Z.max_r in * by lia. apply W_of_D; try lia. pose proof (spb1 g G). pose proof (steps_pos g G (sweeps - 1) ltac:(lia)). pose proof (acq_step g G rdv deff m0 st (sweeps - 1) 0 0 R ltac:(lia) ltac:(lia) ltac:(lia) ltac:(lia) ltac:(lia)) as X. replace (sweeps - 1 + 1) with sweeps in X by lia. apply X. lia.
Qed.
End state.
End key.
