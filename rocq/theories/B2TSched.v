(** * band_to_tridiag, local: scheduling (races, deadlock, independence of the schedule). *)
From Coq Require Import ZArith Lia List Bool Permutation Sorting.Sorted.
From Verif Require Import Loop StarField DenseSpec HouseSpec HouseModel Reorder SemModel SemProofs B2TModel.
Import ListNotations.
Local Open Scope Z_scope.

Lemma ceil_div_lt : forall x b t, 0 < b -> (t < ceil_div x b <-> t * b < x).
Proof.
  intros x b t Hb. unfold ceil_div. pose proof (Z.div_mod (x + b - 1) b ltac:(lia)). pose proof (Z.mod_pos_bound (x + b - 1) b Hb).
  set (q := (x + b - 1) / b) in *. split; intros L; nia.
Qed.
Lemma nth_blocks : forall {X} (f : Z -> list X) w n q r, (0 < w)%nat -> (forall t, length (f t) = w) -> 0 <= q < n -> (r < w)%nat ->
  nth_error (flat_map f (zrange 0 n)) (w * Z.to_nat q + r) = nth_error (f q) r.
Proof.
  intros X f w n q r Hw FL Lq Lr. assert (G : forall lo, 0 <= lo -> lo + q < n -> nth_error (flat_map f (zrange lo n)) (w * Z.to_nat q + r) = nth_error (f (lo + q)) r).
  { destruct Lq as [Lq _]. revert Lq. apply (natlike_ind (fun q => forall lo, 0 <= lo -> lo + q < n -> nth_error (flat_map f (zrange lo n)) (w * Z.to_nat q + r) = nth_error (f (lo + q)) r)).
    - intros lo L1 L2. rewrite zrange_cons by lia. cbn [flat_map]. rewrite nth_error_app1 by (rewrite FL; lia). rewrite Z.add_0_r. f_equal. cbn. lia.
    - intros k Lk IH lo L1 L2. rewrite zrange_cons by lia. cbn [flat_map]. rewrite nth_error_app2 by (rewrite FL, Z2Nat.inj_succ by lia; lia). rewrite FL, Z2Nat.inj_succ by lia.
      replace (w * S (Z.to_nat k) + r - w)%nat with (w * Z.to_nat k + r)%nat by lia. rewrite IH by lia. f_equal. f_equal. lia. }
  rewrite G by lia. reflexivity.
Qed.
Lemma blocks_length : forall {X} (f : Z -> list X) w n, (forall t, length (f t) = w) -> 0 <= n -> length (flat_map f (zrange 0 n)) = (w * Z.to_nat n)%nat.
Proof.
  intros X f w n FL Hn. assert (G : forall l, length (flat_map f l) = (w * length l)%nat) by (induction l as [|x l IH]; cbn; [lia|]; rewrite app_length, FL, IH; lia).
  rewrite G. f_equal. pose proof (zrange_length 0 n). lia.
Qed.

Lemma nodup_app : forall {X} (a b : list X), NoDup a -> NoDup b -> (forall x, In x a -> In x b -> False) -> NoDup (a ++ b).
Proof.
  intros X a b Na Nb D. induction Na as [|x a N1 N2 IH]; [exact Nb|]. cbn. constructor.
  - intros I0. apply in_app_or in I0 as [I0|I0]; [contradiction|]. apply (D x); [left; reflexivity|exact I0].
  - apply IH. intros y Y1 Y2. apply (D y); [right; exact Y1|exact Y2].
Qed.
Lemma zsum_nonneg : forall {X} (f : X -> Z) l, (forall x, In x l -> 0 <= f x) -> 0 <= zsum f l.
Proof. intros X f l H. rewrite <- (zsum_0 (fun _ : X => 0) l) by reflexivity. apply zsum_le. exact H. Qed.
Lemma zsum_single : forall {X} (f : X -> Z) l t, NoDup l -> In t l -> (forall u, In u l -> u <> t -> f u = 0) -> zsum f l = f t.
Proof.
  intros X f l t ND It O. induction ND as [|x l N1 N2 IH]; [destruct It|]. rewrite zsum_cons. destruct It as [->|It].
  - rewrite zsum_0; [lia|]. intros u Iu. apply O; [right; exact Iu|]. intros ->. contradiction.
  - rewrite (O x (or_introl eq_refl)) by (intros ->; contradiction). rewrite IH; [lia|exact It|]. intros u Iu. apply O. right. exact Iu.
Qed.
Lemma zsum_ge1 : forall {X} (f : X -> Z) l t, In t l -> (forall u, In u l -> 0 <= f u) -> f t <= zsum f l.
Proof.
  intros X f l t It NN. induction l as [|x l IH]; [destruct It|]. rewrite zsum_cons. pose proof (NN x (or_introl eq_refl)).
  assert (NN' : forall u, In u l -> 0 <= f u) by (intros; apply NN; right; assumption). pose proof (zsum_nonneg f l NN'). destruct It as [->|It]; [lia|]. specialize (IH It NN'). lia.
Qed.
Lemma zsum_ge2 : forall {X} (f : X -> Z) l t u, In t l -> In u l -> t <> u -> (forall x, In x l -> 0 <= f x) -> f t + f u <= zsum f l.
Proof.
  intros X f l t u It Iu N NN. induction l as [|x l IH]; [destruct It|]. rewrite zsum_cons. pose proof (NN x (or_introl eq_refl)).
  assert (NN' : forall u, In u l -> 0 <= f u) by (intros; apply NN; right; assumption).
  destruct It as [->|It], Iu as [->|Iu]; [congruence| | |specialize (IH It Iu NN'); lia].
  - pose proof (zsum_ge1 f l u Iu NN'). lia.
  - pose proof (zsum_ge1 f l t It NN'). lia.
Qed.

Section sched.
Context {K : starfield} (lf : larfg_fn K).
Variables (cplx : bool) (size nb b nthreads : Z) (A : mat K).
Hypothesis Hs : 0 <= size.
Hypothesis Hb : 2 <= b.
Hypothesis Hnb : 0 < nb.
Hypothesis Hdiv : nb mod b = 0.
Hypothesis Hth : 0 < nthreads.
Notation sweeps := (nr_sweeps cplx size).
Notation steps := (nr_steps size b).
Notation nt := (nt size nb).
Notation mw := (max_workers size b nthreads).
Notation P := (b2t lf cplx size nb b nthreads A).
Notation prg := (b2t_prog cplx size nb b nthreads).
Notation ths := (b2t_threads cplx size nb).
Lemma nb_b : exists q, nb = q * b /\ 1 <= q.
Proof using Hs Hb Hnb Hdiv Hth. apply Z.div_exact in Hdiv; [|lia]. exists (nb / b). split; [lia|]. nia. Qed.
Lemma wid_eq : forall s t, 0 <= t -> wid s t = (s, t).
Proof using Hs Hb Hnb Hdiv Hth.
  intros s t Lt. unfold wid. replace t with (Z.of_nat (Z.to_nat t)) at 2 by lia. induction (Z.to_nat t) as [|k IH]; [reflexivity|].
  change (Nat.iter (S k) next_id (set_id s 0)) with (next_id (Nat.iter k next_id (set_id s 0))). rewrite IH. unfold next_id. cbn [fst snd]. f_equal. lia.
Qed.
Lemma sweeps_le : sweeps <= size - 1.
Proof using Hs Hb Hnb Hdiv Hth. unfold nr_sweeps. destruct cplx; lia. Qed.
Lemma steps_lt : forall s t, 0 <= s < sweeps -> (t < steps s <-> if s =? size - 2 then t < 1 else t * b < size - s - 2).
Proof using Hs Hb Hnb Hdiv Hth.
  intros s t Ls. unfold nr_steps. destruct (Z.eqb_spec s (size - 2)); [tauto|]. apply ceil_div_lt. lia.
Qed.
Lemma steps_pos : forall s, 0 <= s < sweeps -> 1 <= steps s.
Proof using Hs Hb Hnb Hdiv Hth.
  intros s Ls. pose proof sweeps_le. assert (0 < steps s); [|lia]. apply steps_lt; [exact Ls|]. destruct (Z.eqb_spec s (size - 2)); lia.
Qed.
Lemma steps_next : forall s, 0 <= s -> s + 1 < sweeps -> steps (s + 1) <= steps s <= steps (s + 1) + 1.
Proof using Hs Hb Hnb Hdiv Hth.
  intros s Ls L1. pose proof sweeps_le. pose proof (steps_pos s ltac:(lia)). pose proof (steps_pos (s + 1) ltac:(lia)). split.
  - destruct (Z_lt_le_dec (steps s) (steps (s + 1))) as [C|C]; [|lia]. apply steps_lt in C; [|lia]. destruct (Z.eqb_spec (s + 1) (size - 2)); [lia|].
    assert (steps s < steps s); [|lia]. apply steps_lt; [lia|]. destruct (Z.eqb_spec s (size - 2)); lia.
  - destruct (Z_lt_le_dec (steps (s + 1) + 1) (steps s)) as [C|C]; [|lia]. apply steps_lt in C; [|lia]. destruct (Z.eqb_spec s (size - 2)); [lia|].
    assert (steps (s + 1) < steps (s + 1)); [|lia]. apply steps_lt; [lia|]. destruct (Z.eqb_spec (s + 1) (size - 2)); nia.
Qed.
Lemma mw_pos : 0 < size -> 0 < mw.
Proof using Hs Hb Hnb Hdiv Hth. intros L. unfold max_workers. assert (0 < ceil_div size (2 * b - 1)) by (apply ceil_div_lt; lia). lia. Qed.
Lemma nt_lt : forall k, k < nt <-> k * nb < size.
Proof using Hs Hb Hnb Hdiv Hth. intros k. unfold B2TModel.nt. apply ceil_div_lt. exact Hnb. Qed.

(** ** Where the actions are *)
Definition owner (a : act) : thread :=
  match a with CopyD k | CopyO k => TCopy k | Init s | TriS s => TInit s | SaveV s _ | Step s _ => TRun s | TriF i => TTri i end.
Definition ipos (s : Z) : nat := if mw <=? s then 2 else 1.
Definition tpos (i : Z) : nat := if (i =? size) && extra_tri cplx size nb && (Z.quot (size - 2) nb =? Z.quot (size - 1) nb) then 2 else 1.
Definition pos (a : act) : nat :=
  match a with
  | CopyD k => 0 | CopyO k => 1
  | Init s => ipos s | TriS s => S (ipos s)
  | SaveV s t => 1 + 4 * Z.to_nat t | Step s t => 3 + 4 * Z.to_nat t
  | TriF i => tpos i
  end.
Definition act_ok (a : act) : Prop :=
  match a with
  | CopyD k => 0 <= k < nt | CopyO k => 0 <= k < nt - 1
  | Init s => 0 <= s < sweeps | TriS s => 0 <= s < sweeps /\ (s + 1) mod nb = 0
  | SaveV s t | Step s t => 0 <= s < sweeps /\ 0 <= t < steps s
  | TriF i => i = size \/ i = size - 1 /\ extra_tri cplx size nb = true
  end.
Notation body s := (fun t => [IAct (SaveV s t); IAcq s; IAct (Step s t); IRel (s + 1) 1] : list (instr thread act)).
Lemma run_nth : forall s q r, 0 <= q < steps s -> (r < 4)%nat -> nth_error (prg (TRun s)) (1 + 4 * Z.to_nat q + r) = nth_error (body s q) r.
Proof using Hs Hb Hnb Hdiv Hth.
  intros s q r Lq Lr. cbn [b2t_prog]. change (1 + 4 * Z.to_nat q + r)%nat with (S (4 * Z.to_nat q + r)). cbn [nth_error]. rewrite nth_error_app1.
  - apply (nth_blocks (body s) 4); [lia|reflexivity|exact Lq|exact Lr].
  - rewrite (blocks_length (body s) 4) by (try reflexivity; lia). lia.
Qed.
Lemma run_length : forall s, 0 <= steps s -> length (prg (TRun s)) = (2 + 4 * Z.to_nat (steps s))%nat.
Proof using Hs Hb Hnb Hdiv Hth. intros s L. cbn [b2t_prog length]. rewrite app_length, (blocks_length (body s) 4) by (try reflexivity; lia). cbn. lia. Qed.
Lemma run_last : forall s, 0 <= steps s -> nth_error (prg (TRun s)) (1 + 4 * Z.to_nat (steps s)) = Some (IRel (s + 1) 1).
Proof using Hs Hb Hnb Hdiv Hth.
  intros s L. cbn [b2t_prog]. cbn [Nat.add nth_error]. rewrite nth_error_app2 by (rewrite (blocks_length (body s) 4) by (try reflexivity; lia); lia).
  rewrite (blocks_length (body s) 4) by (try reflexivity; lia). replace (4 * Z.to_nat (steps s) - _)%nat with 0%nat by lia. reflexivity.
Qed.
Lemma run_cases : forall s i x, 0 <= steps s -> nth_error (prg (TRun s)) i = Some x ->
  (i = 0%nat /\ x = IJoin (TInit s)) \/ (i = (1 + 4 * Z.to_nat (steps s))%nat /\ x = IRel (s + 1) 1) \/
  exists q r, 0 <= q < steps s /\ (r < 4)%nat /\ i = (1 + 4 * Z.to_nat q + r)%nat /\ nth_error (body s q) r = Some x.
Proof using Hs Hb Hnb Hdiv Hth.
  intros s i x L E. destruct i as [|i]; [left; cbn in E; inversion E; auto|]. right.
  assert (Li : (S i < length (prg (TRun s)))%nat) by (apply nth_error_Some; congruence). rewrite run_length in Li by exact L.
  destruct (Nat.eq_dec i (4 * Z.to_nat (steps s))) as [->|N]; [left; pose proof (run_last s L) as E'; cbn [Nat.add] in E'; rewrite E' in E; inversion E; auto|]. right.
  pose proof (Nat.div_mod i 4 ltac:(lia)). pose proof (Nat.mod_upper_bound i 4 ltac:(lia)).
  exists (Z.of_nat (i / 4)), (i mod 4)%nat. assert (R1 : 0 <= Z.of_nat (i / 4) < steps s) by lia. split; [exact R1|]. split; [lia|].
  assert (EI : S i = (1 + 4 * Z.to_nat (Z.of_nat (i / 4)) + i mod 4)%nat) by lia. split; [exact EI|]. rewrite <- run_nth by (try exact R1; lia). rewrite <- EI. exact E.
Qed.
Lemma in_threads : forall t, In t ths <-> 0 < size /\
  match t with
  | TCopy k | TRel k => 0 <= k < nt
  | TInit s | TRun s => 0 <= s < sweeps
  | TFin => True
  | TTri i => i = size \/ i = size - 1 /\ extra_tri cplx size nb = true
  end.
Proof using Hs Hb Hnb Hdiv Hth.
  intros t. unfold b2t_threads. destruct (Z.eqb_spec size 0) as [E|N]; [split; [intros []|lia]|].
  rewrite !in_app_iff, !in_map_iff.
  assert (EX : In t (if extra_tri cplx size nb then [TTri (size - 1)] else []) <-> t = TTri (size - 1) /\ extra_tri cplx size nb = true).
  { destruct (extra_tri cplx size nb); cbn; intuition congruence. }
  rewrite EX. cbn [In]. split.
  - intros H. split; [lia|].
    destruct H as [(k & <- & I0)|[(k & <- & I0)|[(k & <- & I0)|[(k & <- & I0)|[[<-|[]]|[(-> & X)|[<-|[]]]]]]]]; try apply in_zrange in I0; auto.
  - intros (_ & H). destruct t as [k|k|k|k| |k].
    + left. exists k. split; [reflexivity|apply in_zrange; exact H].
    + right. left. exists k. split; [reflexivity|apply in_zrange; exact H].
    + do 2 right. left. exists k. split; [reflexivity|apply in_zrange; exact H].
    + do 3 right. left. exists k. split; [reflexivity|apply in_zrange; exact H].
    + do 4 right. left. left. reflexivity.
    + destruct H as [->|[-> X]]; [do 6 right; left; reflexivity|]. do 5 right. left. auto.
Qed.
Lemma act_pos : forall t i a, In t ths -> nth_error (prg t) i = Some (IAct a) -> t = owner a /\ i = pos a /\ act_ok a.
Proof using Hs Hb Hnb Hdiv Hth.
  intros t i a It E. apply in_threads in It as (SZ & It). destruct t as [k|k|s|s| |k].
  - cbn [b2t_prog] in E. destruct i as [|i]; [inversion E; subst; cbn; auto|]. cbn [nth_error] in E. destruct (Z.ltb_spec k (nt - 1)); [|destruct i; discriminate].
    destruct i as [|[|]]; cbn in E; inversion E; subst. cbn. auto with zarith.
  - exfalso. cbn [b2t_prog] in E. apply nth_error_In in E. destruct E as [E|E]; [discriminate|]. apply in_app_or in E as [E|[E|[]]]; [|discriminate]. destruct (0 <? k); [destruct E as [E|[]]; discriminate|destruct E].
  - cbn [b2t_prog] in E. destruct (mw <=? s) eqn:EM; cbn [app] in E.
    + destruct i as [|[|[|i]]]; try discriminate; cbn [nth_error] in E; [inversion E; subst; cbn; unfold ipos; rewrite EM; auto|].
      destruct (Z.eqb_spec ((s + 1) mod nb) 0); destruct i as [|[|]]; try discriminate. inversion E; subst. cbn. unfold ipos. rewrite EM. auto.
    + destruct i as [|[|i]]; try discriminate; cbn [nth_error] in E; [inversion E; subst; cbn; unfold ipos; rewrite EM; auto|].
      destruct (Z.eqb_spec ((s + 1) mod nb) 0); destruct i as [|[|]]; try discriminate. inversion E; subst. cbn. unfold ipos. rewrite EM. auto.
  - pose proof (steps_pos s It). destruct (run_cases s i _ ltac:(lia) E) as [(_ & X)|[(_ & X)|(q & r & Lq & Lr & -> & X)]]; try discriminate.
    destruct r as [|[|[|[|r]]]]; try lia; cbn in X; inversion X; subst; cbn; split; try reflexivity; (split; [lia|auto]).
  - cbn in E. destruct i as [|[|]]; discriminate.
  - cbn [b2t_prog] in E. destruct i as [|i]; [discriminate|]. cbn [nth_error] in E. cbn [owner pos act_ok]. unfold tpos.
    destruct (_ && _ && _) eqn:C; cbn [app] in E.
    + destruct i as [|[|i]]; try discriminate; [cbn in E; inversion E; subst; cbn [owner pos act_ok]; unfold tpos; rewrite C; auto|destruct i; discriminate].
    + destruct i as [|i]; [cbn in E; inversion E; subst; cbn [owner pos act_ok]; unfold tpos; rewrite C; auto|destruct i; discriminate].
Qed.
Lemma act_at : forall a, 0 < size -> act_ok a -> In (owner a) ths /\ nth_error (prg (owner a)) (pos a) = Some (IAct a).
Proof using Hs Hb Hnb Hdiv Hth.
  intros a SZ OK. split.
  - apply in_threads. split; [exact SZ|]. destruct a; cbn [owner act_ok] in *; try tauto; lia.
  - destruct a as [k|k|s|s|s t|s t|i]; cbn [owner act_ok pos] in *.
    + reflexivity.
    + cbn [b2t_prog nth_error]. destruct (Z.ltb_spec k (nt - 1)); [reflexivity|lia].
    + cbn [b2t_prog]. unfold ipos. destruct (mw <=? s); reflexivity.
    + cbn [b2t_prog]. destruct OK as [_ OK]. apply Z.eqb_eq in OK. rewrite OK. unfold ipos. destruct (mw <=? s); reflexivity.
    + destruct OK as [Ls Lt]. pose proof (run_nth s t 0 Lt ltac:(lia)) as H. rewrite Nat.add_0_r in H. exact H.
    + destruct OK as [Ls Lt]. pose proof (run_nth s t 2 Lt ltac:(lia)) as H. replace (3 + 4 * Z.to_nat t)%nat with (1 + 4 * Z.to_nat t + 2)%nat by lia. exact H.
    + cbn [b2t_prog]. unfold tpos. destruct (_ && _ && _); reflexivity.
Qed.
Lemma occ : forall t i u j a, In t ths -> In u ths -> nth_error (prg t) i = Some (IAct a) -> nth_error (prg u) j = Some (IAct a) -> t = u /\ i = j.
Proof using Hs Hb Hnb Hdiv Hth. intros t i u j a It Iu Ei Ej. apply act_pos in Ei as (-> & -> & _); [|exact It]. apply act_pos in Ej as (-> & -> & _); [|exact Iu]. auto. Qed.
Lemma threads_nodup : NoDup ths.
Proof using Hs Hb Hnb Hdiv Hth.
  unfold b2t_threads. destruct (size =? 0); [constructor|].
  assert (MI : forall (f : Z -> thread) lo hi, (forall x y, f x = f y -> x = y) -> NoDup (map f (zrange lo hi))).
  { intros f lo hi J. apply FinFun.Injective_map_NoDup; [exact J|apply zrange_NoDup]. }
  repeat match goal with |- NoDup (_ ++ _) => apply nodup_app end; try (apply MI; intros x y E; inversion E; reflexivity);
    try (destruct (extra_tri cplx size nb)); try (repeat constructor; cbn; intuition congruence); cbn [app];
    intros x I1 I2; rewrite ?in_app_iff, ?in_map_iff in *; cbn [In] in *;
    repeat match goal with H : _ \/ _ |- _ => destruct H | H : exists _, _ |- _ => destruct H | H : _ /\ _ |- _ => destruct H end; subst; try discriminate; try contradiction.
  all: try match goal with H : TTri _ = TTri _ |- _ => inversion H; lia end.
Qed.

(** ** Counting *)
Ltac d4 := try change (0 / 4) with 0; try change (1 / 4) with 0; try change (2 / 4) with 0; try change (3 / 4) with 0; try change (4 / 4) with 1; try change (5 / 4) with 1; try change (6 / 4) with 1; lia.
Notation acqs := (acqs P). Notation rels := (rels P).
Lemma acqs_zero : forall s t p, (forall x, In x (prg t) -> acq1 s x = 0) -> acqs s t p = 0.
Proof using Hs Hb Hnb Hdiv Hth.
  intros s t p H. unfold SemProofs.acqs. apply zsum_0. intros x Ix. apply H. rewrite <- (firstn_skipn p (prg t)). apply in_or_app. left. exact Ix.
Qed.
Lemma rels_zero : forall s t p, (forall x, In x (prg t) -> rel1 s x = 0) -> rels s t p = 0.
Proof using Hs Hb Hnb Hdiv Hth.
  intros s t p H. unfold SemProofs.rels. apply zsum_0. intros x Ix. apply H. rewrite <- (firstn_skipn p (prg t)). apply in_or_app. left. exact Ix.
Qed.
Lemma in_run : forall s x, 0 <= steps s -> In x (prg (TRun s)) -> x = IJoin (TInit s) \/ x = IRel (s + 1) 1 \/ x = IAcq s \/ (exists t, 0 <= t < steps s /\ (x = IAct (SaveV s t) \/ x = IAct (Step s t))).
Proof using Hs Hb Hnb Hdiv Hth.
  intros s x L I0. cbn [b2t_prog] in I0. destruct I0 as [<-|I0]; [auto|]. apply in_app_or in I0 as [I0|[<-|[]]]; [|auto].
  apply in_flat_map in I0 as (t & It & [<-|[<-|[<-|[<-|[]]]]]); apply in_zrange in It; auto 6; right; right; right; eauto.
Qed.
Lemma run_acqs : forall s p, 0 <= steps s -> (p <= 1 + 4 * Z.to_nat (steps s))%nat -> acqs s (TRun s) p = (Z.of_nat p + 1) / 4.
Proof using Hs Hb Hnb Hdiv Hth.
  intros s p L Lp. induction p as [|p IH]; [reflexivity|]. specialize (IH ltac:(lia)).
  assert (E : exists x, nth_error (prg (TRun s)) p = Some x). { destruct (nth_error (prg (TRun s)) p) eqn:E; [eauto|]. apply nth_error_None in E. rewrite run_length in E by exact L. lia. }
  destruct E as (x & E). rewrite (acqs_next P s (TRun s) p x E), IH. destruct (run_cases s p x L E) as [(-> & ->)|[(-> & ->)|(q & r & Lq & Lr & -> & X)]].
  - reflexivity.
  - lia.
  - destruct r as [|[|[|[|r]]]]; try lia; cbn in X; inversion X; subst; cbn [acq1]; rewrite ?Z.eqb_refl.
    + replace (Z.of_nat (1 + 4 * Z.to_nat q + 0) + 1) with (2 + q * 4) by lia. replace (Z.of_nat (S (1 + 4 * Z.to_nat q + 0)) + 1) with (3 + q * 4) by lia. rewrite !Z.div_add by lia. d4.
    + replace (Z.of_nat (1 + 4 * Z.to_nat q + 1) + 1) with (3 + q * 4) by lia. replace (Z.of_nat (S (1 + 4 * Z.to_nat q + 1)) + 1) with (4 + q * 4) by lia. rewrite !Z.div_add by lia. d4.
    + replace (Z.of_nat (1 + 4 * Z.to_nat q + 2) + 1) with (4 + q * 4) by lia. replace (Z.of_nat (S (1 + 4 * Z.to_nat q + 2)) + 1) with (5 + q * 4) by lia. rewrite !Z.div_add by lia. d4.
    + replace (Z.of_nat (1 + 4 * Z.to_nat q + 3) + 1) with (5 + q * 4) by lia. replace (Z.of_nat (S (1 + 4 * Z.to_nat q + 3)) + 1) with (6 + q * 4) by lia. rewrite !Z.div_add by lia. d4.
Qed.
Lemma run_rels : forall s p, 0 <= steps s -> (p <= 1 + 4 * Z.to_nat (steps s))%nat -> rels (s + 1) (TRun s) p = if (p =? 0)%nat then 0 else (Z.of_nat p - 1) / 4.
Proof using Hs Hb Hnb Hdiv Hth.
  intros s p L Lp. induction p as [|p IH]; [reflexivity|]. specialize (IH ltac:(lia)).
  assert (E : exists x, nth_error (prg (TRun s)) p = Some x). { destruct (nth_error (prg (TRun s)) p) eqn:E; [eauto|]. apply nth_error_None in E. rewrite run_length in E by exact L. lia. }
  destruct E as (x & E). rewrite (rels_next P (s + 1) (TRun s) p x E), IH. destruct (run_cases s p x L E) as [(-> & ->)|[(-> & ->)|(q & r & Lq & Lr & -> & X)]].
  - reflexivity.
  - lia.
  - change ((S (1 + 4 * Z.to_nat q + r) =? 0)%nat) with false. change ((1 + 4 * Z.to_nat q + r =? 0)%nat) with false. cbv iota.
    destruct r as [|[|[|[|r]]]]; try lia; cbn in X; inversion X; subst; cbn [rel1]; rewrite ?Z.eqb_refl.
    + replace (Z.of_nat (1 + 4 * Z.to_nat q + 0) - 1) with (0 + q * 4) by lia. replace (Z.of_nat (S (1 + 4 * Z.to_nat q + 0)) - 1) with (1 + q * 4) by lia. rewrite !Z.div_add by lia. d4.
    + replace (Z.of_nat (1 + 4 * Z.to_nat q + 1) - 1) with (1 + q * 4) by lia. replace (Z.of_nat (S (1 + 4 * Z.to_nat q + 1)) - 1) with (2 + q * 4) by lia. rewrite !Z.div_add by lia. d4.
    + replace (Z.of_nat (1 + 4 * Z.to_nat q + 2) - 1) with (2 + q * 4) by lia. replace (Z.of_nat (S (1 + 4 * Z.to_nat q + 2)) - 1) with (3 + q * 4) by lia. rewrite !Z.div_add by lia. d4.
    + replace (Z.of_nat (1 + 4 * Z.to_nat q + 3) - 1) with (3 + q * 4) by lia. replace (Z.of_nat (S (1 + 4 * Z.to_nat q + 3)) - 1) with (4 + q * 4) by lia. rewrite !Z.div_add by lia. d4.
Qed.
Lemma run_acqs_end : forall s, 0 <= steps s -> acqs s (TRun s) (length (prg (TRun s))) = steps s.
Proof using Hs Hb Hnb Hdiv Hth.
  intros s L. rewrite run_length by exact L. change (2 + 4 * Z.to_nat (steps s))%nat with (S (1 + 4 * Z.to_nat (steps s))). rewrite (acqs_next P s (TRun s) _ _ (run_last s L)). rewrite run_acqs by lia.
  replace (Z.of_nat (1 + 4 * Z.to_nat (steps s)) + 1) with (2 + steps s * 4) by lia. rewrite Z.div_add by lia. cbn. lia.
Qed.
Lemma run_rels_end : forall s, 0 <= steps s -> rels (s + 1) (TRun s) (length (prg (TRun s))) = steps s + 1.
Proof using Hs Hb Hnb Hdiv Hth.
  intros s L. rewrite run_length by exact L. change (2 + 4 * Z.to_nat (steps s))%nat with (S (1 + 4 * Z.to_nat (steps s))). rewrite (rels_next P (s + 1) (TRun s) _ _ (run_last s L)). rewrite run_rels by lia.
  change ((1 + 4 * Z.to_nat (steps s) =? 0)%nat) with false. cbv iota. cbn [rel1]. rewrite Z.eqb_refl. replace (Z.of_nat (1 + 4 * Z.to_nat (steps s)) - 1) with (0 + steps s * 4) by lia. rewrite Z.div_add by lia. cbn. lia.
Qed.
Lemma acqs_mono : forall s t p q, (p <= q)%nat -> acqs s t p <= acqs s t q.
Proof using Hs Hb Hnb Hdiv Hth.
  intros s t p q L. induction L as [|q L IH]; [lia|]. destruct (nth_error (prog P t) q) as [x|] eqn:E.
  - rewrite (acqs_next P s t q x E). assert (0 <= acq1 s x) by (destruct x; cbn; try lia; destruct (_ =? _); lia). lia.
  - unfold SemProofs.acqs in *. apply nth_error_None in E. rewrite (firstn_all2 (n := S q)) by lia. rewrite (firstn_all2 (n := q)) in IH by lia. exact IH.
Qed.
Lemma acqs_nonneg : forall s t p, 0 <= acqs s t p.
Proof using Hs Hb Hnb Hdiv Hth. intros s t p. pose proof (acqs_mono s t 0 p ltac:(lia)). unfold SemProofs.acqs in *. cbn [firstn zsum fold_right] in *. lia. Qed.
Lemma rel_nonneg : forall t s n, In t ths -> In (IRel s n) (prg t) -> 0 <= n.
Proof using Hs Hb Hnb Hdiv Hth.
  intros t s n It I0. apply in_threads in It as (SZ & It). destruct t as [k|k|u|u| |k]; cbn [b2t_prog] in I0.
  - destruct I0 as [E|I0]; [discriminate|]. destruct (k <? nt - 1); [destruct I0 as [E|[]]; discriminate|destruct I0].
  - destruct I0 as [E|I0]; [discriminate|]. apply in_app_or in I0 as [I0|[I0|[]]]; [destruct (0 <? k); [destruct I0 as [E|[]]; discriminate|destruct I0]|].
    inversion I0; subst. destruct (k <? nt - 1) eqn:C; [apply Z.div_pos; lia|]. assert (k * nb < size) by (apply nt_lt; lia). assert (0 < ceil_div (size - k * nb) b) by (apply ceil_div_lt; lia). lia.
  - apply in_app_or in I0 as [I0|I0]; [destruct (mw <=? u); [destruct I0 as [E|[]]; discriminate|destruct I0]|].
    destruct I0 as [E|[E|I0]]; try discriminate. destruct (_ =? 0); [destruct I0 as [E|[]]; discriminate|destruct I0].
  - destruct I0 as [E|I0]; [discriminate|]. apply in_app_or in I0 as [I0|[I0|[]]]; [|inversion I0; lia].
    apply in_flat_map in I0 as (t & _ & [E|[E|[E|[E|[]]]]]); inversion E. lia.
  - destruct I0 as [E|[]]. discriminate.
  - destruct I0 as [E|I0]; [discriminate|]. apply in_app_or in I0 as [I0|[E|[]]]; [|discriminate]. destruct (_ && _ && _); [destruct I0 as [E|[]]; discriminate|destruct I0].
Qed.
(** which threads acquire and release a semaphore *)
Lemma who_rels : forall s t p, In t ths -> rels s t p <> 0 -> (s = 0 /\ exists k, t = TRel k) \/ t = TRun (s - 1).
Proof using Hs Hb Hnb Hdiv Hth.
  intros s t p It N. destruct t as [k|k|u|u| |k].
  - exfalso; apply N; apply rels_zero; intros x I0; cbn [b2t_prog] in I0. destruct I0 as [<-|I0]; [reflexivity|]. destruct (k <? nt - 1); [destruct I0 as [<-|[]]; reflexivity|destruct I0].
  - destruct (Z.eq_dec s 0) as [->|NZ]; [left; eauto|]. exfalso. apply N. apply rels_zero. intros x I0. cbn [b2t_prog] in I0.
    destruct I0 as [<-|I0]; [reflexivity|]. apply in_app_or in I0 as [I0|[<-|[]]]; [destruct (0 <? k); [destruct I0 as [<-|[]]; reflexivity|destruct I0]|].
    cbn [rel1]. destruct (Z.eqb_spec 0 s); [congruence|reflexivity].
  - exfalso; apply N; apply rels_zero; intros x I0; cbn [b2t_prog] in I0. apply in_app_or in I0 as [I0|I0]; [destruct (mw <=? u); [destruct I0 as [<-|[]]; reflexivity|destruct I0]|].
    destruct I0 as [<-|[<-|I0]]; try reflexivity. destruct (_ =? 0); [destruct I0 as [<-|[]]; reflexivity|destruct I0].
  - destruct (Z.eq_dec s (u + 1)) as [->|NZ]; [right; f_equal; lia|]. exfalso. apply N. apply rels_zero. intros x I0. cbn [b2t_prog] in I0.
    destruct I0 as [<-|I0]; [reflexivity|]. assert (Z1 : @rel1 thread act s (IRel (u + 1) 1) = 0) by (cbn [rel1]; destruct (Z.eqb_spec (u + 1) s); [congruence|reflexivity]).
    apply in_app_or in I0 as [I0|[<-|[]]]; [|exact Z1]. apply in_flat_map in I0 as (t & _ & [<-|[<-|[<-|[<-|[]]]]]); first [exact Z1|reflexivity].
  - exfalso; apply N; apply rels_zero; intros x I0; cbn [b2t_prog] in I0. destruct I0 as [<-|[]]. reflexivity.
  - exfalso; apply N; apply rels_zero; intros x I0; cbn [b2t_prog] in I0. destruct I0 as [<-|I0]; [reflexivity|]. apply in_app_or in I0 as [I0|[<-|[]]]; [|reflexivity]. destruct (_ && _ && _); [destruct I0 as [<-|[]]; reflexivity|destruct I0].
Qed.
Lemma init_acqs : forall s p, acqs s (TInit s) p = if (ipos s <=? p)%nat then 1 else 0.
Proof using Hs Hb Hnb Hdiv Hth.
  intros s p. unfold SemProofs.acqs, ipos. cbn [prog b2t b2t_prog].
  destruct (mw <=? s); cbn [app]; (destruct p as [|[|[|p]]]; cbn [firstn]; rewrite ?zsum_cons; cbn [acq1]; rewrite ?Z.eqb_refl; try reflexivity);
    cbn [Nat.leb]; destruct (_ =? 0); [|destruct p; reflexivity| |destruct p; reflexivity]; destruct p; cbn [firstn]; rewrite ?firstn_nil, ?zsum_cons; reflexivity.
Qed.
Lemma fin_acqs : forall p, acqs (last_sem cplx size) TFin p = if (1 <=? p)%nat then 1 else 0.
Proof using Hs Hb Hnb Hdiv Hth.
  intros [|p]; [reflexivity|]. unfold SemProofs.acqs. cbn [prog b2t b2t_prog firstn]. rewrite firstn_nil, zsum_cons. cbn [acq1 Nat.leb]. rewrite Z.eqb_refl. reflexivity.
Qed.
Lemma who_acqs : forall s t p, In t ths -> acqs s t p <> 0 -> t = TInit s \/ t = TRun s \/ (t = TFin /\ s = last_sem cplx size).
Proof using Hs Hb Hnb Hdiv Hth.
  intros s t p It N. destruct t as [k|k|u|u| |k].
  - exfalso; apply N; apply acqs_zero; intros x I0; cbn [b2t_prog] in I0. destruct I0 as [<-|I0]; [reflexivity|]. destruct (k <? nt - 1); [destruct I0 as [<-|[]]; reflexivity|destruct I0].
  - exfalso; apply N; apply acqs_zero; intros x I0; cbn [b2t_prog] in I0. destruct I0 as [<-|I0]; [reflexivity|]. apply in_app_or in I0 as [I0|[<-|[]]]; [destruct (0 <? k); [destruct I0 as [<-|[]]; reflexivity|destruct I0]|]. reflexivity.
  - destruct (Z.eq_dec s u) as [->|NZ]; [auto|]. exfalso. apply N. apply acqs_zero. intros x I0. cbn [b2t_prog] in I0.
    apply in_app_or in I0 as [I0|I0]; [destruct (mw <=? u); [destruct I0 as [<-|[]]; reflexivity|destruct I0]|].
    destruct I0 as [<-|[<-|I0]]; [cbn [acq1]; destruct (Z.eqb_spec u s); [congruence|reflexivity]|reflexivity|]. destruct (_ =? 0); [destruct I0 as [<-|[]]; reflexivity|destruct I0].
  - destruct (Z.eq_dec s u) as [->|NZ]; [auto|]. exfalso. apply N. apply acqs_zero. intros x I0. cbn [b2t_prog] in I0.
    destruct I0 as [<-|I0]; [reflexivity|]. assert (Z1 : @acq1 thread act s (IAcq u) = 0) by (cbn [acq1]; destruct (Z.eqb_spec u s); [congruence|reflexivity]).
    apply in_app_or in I0 as [I0|[<-|[]]]; [|reflexivity]. apply in_flat_map in I0 as (t & _ & [<-|[<-|[<-|[<-|[]]]]]); first [exact Z1|reflexivity].
  - destruct (Z.eq_dec s (last_sem cplx size)) as [->|NZ]; [auto|]. exfalso. apply N. apply acqs_zero. intros x I0. cbn [b2t_prog] in I0. destruct I0 as [<-|[]].
    cbn [acq1]. destruct (Z.eqb_spec (last_sem cplx size) s); [congruence|reflexivity].
  - exfalso; apply N; apply acqs_zero; intros x I0; cbn [b2t_prog] in I0. destruct I0 as [<-|I0]; [reflexivity|]. apply in_app_or in I0 as [I0|[<-|[]]]; [|reflexivity]. destruct (_ && _ && _); [destruct I0 as [<-|[]]; reflexivity|destruct I0].
Qed.

Section states.
Variable m0 : loc -> F K.
Notation reach := (sreach thread_eq P m0).
Lemma acq_le_rel : forall st s, reach st -> zsum (fun t => acqs s t (pc st t)) ths <= zsum (fun t => rels s t (pc st t)) ths.
Proof using Hs Hb Hnb Hdiv Hth.
  intros st s R. pose proof (sem_count thread_eq P threads_nodup m0 st R s). pose proof (sem_nonneg thread_eq P rel_nonneg m0 st R s). cbn [threads b2t] in *. lia.
Qed.
Lemma rels_sum : forall (st : sstate thread loc (F K)) s, 0 <= s < sweeps -> zsum (fun t => rels (s + 1) t (pc st t)) ths = rels (s + 1) (TRun s) (pc st (TRun s)).
Proof using Hs Hb Hnb Hdiv Hth.
  intros st s Ls. apply (zsum_single (fun t => rels (s + 1) t (pc st t)) ths (TRun s) threads_nodup).
  - apply in_threads. pose proof sweeps_le. split; [lia|exact Ls].
  - intros u Iu NE. destruct (Z.eq_dec (rels (s + 1) u (pc st u)) 0) as [E|N]; [exact E|]. exfalso.
    destruct (who_rels _ _ _ Iu N) as [(E & _)|E]; [lia|]. apply NE. rewrite E. f_equal. lia.
Qed.
(** a thread that has passed a step of sweep s has passed the acquisitions before it *)
Definition D (st : sstate thread loc (F K)) (s u : Z) : Prop := forall t, 0 <= t < steps s -> t < u -> (pos (Step s t) < pc st (TRun s))%nat.
Lemma D_of_rels : forall st s u, reach st -> 0 <= s < sweeps -> u <= rels (s + 1) (TRun s) (pc st (TRun s)) -> D st s u.
Proof using Hs Hb Hnb Hdiv Hth.
  intros st s u R Ls L t Lt Lu. pose proof (steps_pos s Ls). pose proof (pc_le thread_eq P m0 st R (TRun s)) as PL. cbn [prog b2t] in PL. rewrite run_length in PL by lia.
  cbn [pos]. destruct (Nat.eq_dec (pc st (TRun s)) (2 + 4 * Z.to_nat (steps s))) as [E|N]; [lia|].
  rewrite run_rels in L by lia. destruct (Nat.eqb_spec (pc st (TRun s)) 0); [lia|].
  assert (t + 1 <= (Z.of_nat (pc st (TRun s)) - 1) / 4) by lia. pose proof (Z.div_mod (Z.of_nat (pc st (TRun s)) - 1) 4 ltac:(lia)). pose proof (Z.mod_pos_bound (Z.of_nat (pc st (TRun s)) - 1) 4 ltac:(lia)). lia.
Qed.
Lemma init_done : forall st s, reach st -> 0 <= s < sweeps -> (0 < pc st (TRun s))%nat -> finished P st (TInit s).
Proof using Hs Hb Hnb Hdiv Hth.
  intros st s R Ls L. pose proof sweeps_le. apply (joined thread_eq P m0 st R (TRun s) 0 (TInit s)); [apply in_threads; split; [lia|exact Ls]|reflexivity|exact L].
Qed.
Lemma ipos_le : forall s, (ipos s <= length (prg (TInit s)))%nat.
Proof using Hs Hb Hnb Hdiv Hth. intros s. unfold ipos. cbn [b2t_prog]. rewrite app_length. destruct (mw <=? s); cbn; lia. Qed.
Lemma acq_init_run : forall st s t, reach st -> 0 <= s < sweeps -> 0 <= t < steps s -> (pos (Step s t) <= pc st (TRun s))%nat -> t + 2 <= zsum (fun u => rels s u (pc st u)) ths.
Proof using Hs Hb Hnb Hdiv Hth.
  intros st s t R Ls Lt Lp. pose proof sweeps_le. pose proof (steps_pos s Ls). etransitivity; [|apply acq_le_rel; exact R].
  etransitivity; [|apply (zsum_ge2 (fun u => acqs s u (pc st u)) ths (TInit s) (TRun s)); [apply in_threads; split; [lia|exact Ls]|apply in_threads; split; [lia|exact Ls]|discriminate|intros; apply acqs_nonneg]].
  assert (FI : finished P st (TInit s)) by (apply init_done; [exact R|exact Ls|cbn [pos] in Lp; lia]). unfold finished in FI. cbn [prog b2t] in FI. rewrite FI, init_acqs.
  destruct (Nat.leb_spec (ipos s) (length (prg (TInit s)))); [|pose proof (ipos_le s); lia].
  pose proof (acqs_mono s (TRun s) _ _ Lp) as M. cbn [pos] in M. rewrite run_acqs in M by lia. replace (Z.of_nat (3 + 4 * Z.to_nat t) + 1) with (4 + t * 4) in M by lia. rewrite Z.div_add in M by lia. change (4 / 4) with 1 in M. lia.
Qed.
Lemma acq_init : forall st s, reach st -> 0 <= s < sweeps -> (ipos s <= pc st (TInit s))%nat -> 1 <= zsum (fun u => rels s u (pc st u)) ths.
Proof using Hs Hb Hnb Hdiv Hth.
  intros st s R Ls Lp. pose proof sweeps_le. etransitivity; [|apply acq_le_rel; exact R].
  etransitivity; [|apply (zsum_ge1 (fun u => acqs s u (pc st u)) ths (TInit s)); [apply in_threads; split; [lia|exact Ls]|intros; apply acqs_nonneg]].
  rewrite init_acqs. apply Nat.leb_le in Lp. rewrite Lp. lia.
Qed.
Lemma D_step : forall st s t, reach st -> 0 <= s -> s + 1 < sweeps -> 0 <= t < steps (s + 1) -> (pos (Step (s + 1) t) <= pc st (TRun (s + 1)))%nat -> D st s (t + 2).
Proof using Hs Hb Hnb Hdiv Hth.
  intros st s t R Ls L1 Lt Lp. apply D_of_rels; [exact R|lia|]. rewrite <- rels_sum by lia. apply acq_init_run; try assumption; lia.
Qed.
Lemma D_init : forall st s, reach st -> 0 <= s -> s + 1 < sweeps -> (ipos (s + 1) <= pc st (TInit (s + 1)))%nat -> D st s 1.
Proof using Hs Hb Hnb Hdiv Hth.
  intros st s R Ls L1 Lp. apply D_of_rels; [exact R|lia|]. rewrite <- rels_sum by lia. apply acq_init; try assumption; lia.
Qed.
Lemma D_down1 : forall st s u, reach st -> 0 <= s -> s + 1 < sweeps -> 1 <= u -> D st (s + 1) u -> D st s (u + 1).
Proof using Hs Hb Hnb Hdiv Hth.
  intros st s u R Ls L1 Lu H. pose proof (steps_next s Ls L1). pose proof (steps_pos (s + 1) ltac:(lia)).
  destruct (Z_le_gt_dec u (steps (s + 1))) as [C|C].
  - replace (u + 1) with (u - 1 + 2) by lia. apply D_step; [exact R|exact Ls|exact L1|lia|]. specialize (H (u - 1) ltac:(lia) ltac:(lia)). lia.
  - intros t Lt L2. apply (D_step st s (steps (s + 1) - 1) R Ls L1 ltac:(lia)); [|exact Lt|lia]. specialize (H (steps (s + 1) - 1) ltac:(lia) ltac:(lia)). lia.
Qed.
Lemma D_down : forall st s u d, reach st -> 0 <= d <= s -> s < sweeps -> 1 <= u -> D st s u -> D st (s - d) (u + d).
Proof using Hs Hb Hnb Hdiv Hth.
  intros st s u d R [L0 Ld] Ls Lu H. revert Ld. pattern d. apply natlike_ind; [|intros k Lk IH Ld|exact L0].
  - intros _. rewrite Z.sub_0_r, Z.add_0_r. exact H.
  - replace (u + Z.succ k) with (u + k + 1) by lia. apply D_down1; [exact R|lia|lia|lia|]. replace (s - Z.succ k + 1) with (s - k) by lia. apply IH. lia.
Qed.
Lemma D_run : forall st s u, reach st -> 0 <= s < sweeps -> 1 <= u -> D st s u -> (0 < pc st (TRun s))%nat.
Proof using Hs Hb Hnb Hdiv Hth. intros st s u R Ls Lu H. pose proof (steps_pos s Ls). specialize (H 0 ltac:(lia) ltac:(lia)). cbn [pos] in H. lia. Qed.

(** ** The copy of the band *)
Lemma trel_chain : forall st k j, reach st -> 0 <= j <= k -> k < nt -> finished P st (TRel k) -> finished P st (TRel j).
Proof using Hs Hb Hnb Hdiv Hth.
  intros st k j R [L0 Lj] Lk F. assert (G : forall d, 0 <= d -> d <= k -> finished P st (TRel (k - d))).
  { intros d Hd. pattern d. apply natlike_ind; [|intros e Le IH Ld|exact Hd]; [intros _; rewrite Z.sub_0_r; exact F|]. specialize (IH ltac:(lia)).
    assert (SZ : 0 < size) by (assert (k * nb < size) by (apply nt_lt; exact Lk); nia).
    apply (joined thread_eq P m0 st R (TRel (k - e)) 1).
    - apply in_threads. split; [exact SZ|lia].
    - cbn [prog b2t b2t_prog nth_error]. destruct (Z.ltb_spec 0 (k - e)); [|lia]. cbn. f_equal. f_equal. f_equal. lia.
    - unfold finished in IH. cbn [prog b2t b2t_prog] in IH. rewrite IH. destruct (0 <? k - e); cbn; lia. }
  replace j with (k - (k - j)) by lia. apply G; lia.
Qed.
Lemma trel_copy : forall st k, reach st -> 0 <= k < nt -> finished P st (TRel k) -> finished P st (TCopy k).
Proof using Hs Hb Hnb Hdiv Hth.
  intros st k R Lk F. assert (SZ : 0 < size) by (assert (k * nb < size) by (apply nt_lt; lia); nia).
  apply (joined thread_eq P m0 st R (TRel k) 0); [apply in_threads; split; [exact SZ|exact Lk]|reflexivity|]. unfold finished in F. cbn [prog b2t b2t_prog length] in F. lia.
Qed.
Definition nrel (k : Z) : Z := if k <? nt - 1 then nb / b else ceil_div (size - k * nb) b + 1.
Lemma trel_rels : forall k p, (p <= length (prg (TRel k)))%nat -> rels 0 (TRel k) p = if (length (prg (TRel k)) =? p)%nat then nrel k else 0.
Proof using Hs Hb Hnb Hdiv Hth.
  intros k p L. unfold SemProofs.rels. cbn [prog b2t b2t_prog length] in *. fold (nrel k) in *. destruct (0 <? k); cbn [app length] in *;
    destruct p as [|[|[|p]]]; cbn [firstn Nat.eqb] in *; rewrite ?firstn_nil; rewrite ?zsum_cons; cbn [rel1 zsum fold_right]; rewrite ?Z.eqb_refl; try lia; destruct p; cbn [firstn Nat.eqb]; rewrite ?zsum_cons; cbn; lia.
Qed.
Lemma zsum_map : forall {X Y} (g : X -> Y) (f : Y -> Z) l, zsum f (map g l) = zsum (fun x => f (g x)) l.
Proof. intros X Y g f l. induction l as [|x l IH]; [reflexivity|]. cbn [map]. rewrite !zsum_cons, IH. reflexivity. Qed.
Lemma zsum_const : forall c lo hi, lo <= hi -> zsum (fun _ => c) (zrange lo hi) = (hi - lo) * c.
Proof.
  intros c lo hi L. remember (Z.to_nat (hi - lo)) as k eqn:E. revert lo L E. induction k as [|k IH]; intros lo L E.
  - rewrite zrange_nil by lia. cbn. assert (hi - lo = 0) by lia. nia.
  - rewrite zrange_cons by lia. rewrite zsum_cons, IH by lia. lia.
Qed.
(** the releases of the copy, as a sum over the blocks *)
Lemma rels0_sum : forall (st : sstate thread loc (F K)), 0 < size -> zsum (fun t => rels 0 t (pc st t)) ths = zsum (fun k => rels 0 (TRel k) (pc st (TRel k))) (zrange 0 nt).
Proof using Hs Hb Hnb Hdiv Hth.
  intros st SZ. unfold b2t_threads. destruct (Z.eqb_spec size 0); [lia|]. rewrite !zsum_app, !zsum_map.
  assert (O : forall t, In t ths -> (forall k, t <> TRel k) -> (forall s, t = TRun s -> 0 <= s) -> rels 0 t (pc st t) = 0).
  { intros t It N1 N2. destruct (Z.eq_dec (rels 0 t (pc st t)) 0) as [E|E]; [exact E|]. destruct (who_rels _ _ _ It E) as [(_ & k & X)|X]; [exfalso; eapply N1; exact X|]. apply N2 in X. lia. }
  assert (I1 : forall t, (0 < size /\ match t with TCopy k | TRel k => 0 <= k < nt | TInit s | TRun s => 0 <= s < sweeps | TFin => True | TTri i => i = size \/ i = size - 1 /\ extra_tri cplx size nb = true end) -> In t ths) by (intros; apply in_threads; assumption).
  rewrite (zsum_0 (fun x => rels 0 (TCopy x) (pc st (TCopy x)))) by (intros k Ik; apply in_zrange in Ik; apply O; [apply I1; auto|discriminate|discriminate]).
  rewrite (zsum_0 (fun x => rels 0 (TInit x) (pc st (TInit x)))) by (intros k Ik; apply in_zrange in Ik; apply O; [apply I1; auto|discriminate|discriminate]).
  rewrite (zsum_0 (fun x => rels 0 (TRun x) (pc st (TRun x)))) by (intros k Ik; apply in_zrange in Ik; apply O; [apply I1; auto|discriminate|intros s E; inversion E; lia]).
  rewrite (zsum_0 _ [TFin]) by (intros t [<-|[]]; apply O; [apply I1; auto|discriminate|discriminate]).
  rewrite (zsum_0 _ [TTri size]) by (intros t [<-|[]]; apply O; [apply I1; auto|discriminate|discriminate]).
  rewrite (zsum_0 _ (if extra_tri cplx size nb then [TTri (size - 1)] else [])); [lia|].
  intros t It. destruct (extra_tri cplx size nb) eqn:EX; [|destruct It]. destruct It as [<-|[]]. apply O; [apply I1; auto|discriminate|discriminate].
Qed.
Lemma rels0_bound : forall st k, reach st -> 0 <= k < nt -> ~ finished P st (TRel k) -> zsum (fun t => rels 0 t (pc st t)) ths <= k * (nb / b).
Proof using Hs Hb Hnb Hdiv Hth.
  intros st k R Lk NF. assert (SZ : 0 < size) by (assert (k * nb < size) by (apply nt_lt; lia); nia). rewrite rels0_sum by exact SZ.
  rewrite (zrange_app 0 k nt) by lia. rewrite zsum_app. rewrite (zsum_0 _ (zrange k nt)).
  - rewrite Z.add_0_r. etransitivity; [apply (zsum_le _ (fun _ => nb / b))|rewrite zsum_const by lia; lia].
    intros j Ij. apply in_zrange in Ij. rewrite trel_rels by (apply (pc_le thread_eq P m0 st R (TRel j))).
    assert (0 <= nb / b) by (apply Z.div_pos; lia). destruct (_ =? _)%nat; [|lia]. unfold nrel. destruct (Z.ltb_spec j (nt - 1)); lia.
  - intros j Ij. apply in_zrange in Ij. rewrite trel_rels by (apply (pc_le thread_eq P m0 st R (TRel j))). destruct (Nat.eqb_spec (length (prg (TRel j))) (pc st (TRel j))) as [E|]; [|reflexivity].
    exfalso. apply NF. apply (trel_chain st j k R); [lia|lia|]. symmetry. exact E.
Qed.
Lemma finished_dec : forall st t, {finished P st t} + {~ finished P st t}.
Proof. intros st t. apply Nat.eq_dec. Qed.
Lemma copy_of_rels : forall st k, reach st -> 0 <= k < nt -> k * (nb / b) < zsum (fun t => rels 0 t (pc st t)) ths -> finished P st (TCopy k).
Proof using Hs Hb Hnb Hdiv Hth.
  intros st k R Lk L. apply trel_copy; [exact R|exact Lk|]. destruct (finished_dec st (TRel k)) as [F|F]; [exact F|]. pose proof (rels0_bound st k R Lk F). lia.
Qed.
Lemma D_copy : forall st u k, reach st -> 0 < sweeps -> 1 <= u -> D st 0 u -> 0 <= k < nt -> k * nb <= u * b -> finished P st (TCopy k).
Proof using Hs Hb Hnb Hdiv Hth.
  intros st u k R Lw Lu H Lk L. apply copy_of_rels; [exact R|exact Lk|]. pose proof (steps_pos 0 ltac:(lia)). pose proof sweeps_le.
  assert (KS : k * nb < size) by (apply nt_lt; lia).
  set (u' := Z.min u (steps 0)). assert (u' - 1 + 2 <= zsum (fun t => rels 0 t (pc st t)) ths).
  { apply acq_init_run; [exact R|lia|lia|]. assert (pos (Step 0 (u' - 1)) < pc st (TRun 0))%nat by (apply H; lia). lia. }
  destruct nb_b as (q & EQ & Lq). replace (nb / b) with q by (rewrite EQ, Z.div_mul; lia). rewrite EQ in L, KS.
  assert (k * q <= u) by nia. assert (k * q <= steps 0); [|lia].
  destruct (Z_lt_le_dec (steps 0) (k * q)) as [C|C]; [|exact C]. exfalso. assert (C2 : steps 0 <= k * q - 1) by lia.
  assert (X : k * q - 1 < steps 0); [|lia]. apply steps_lt; [lia|]. destruct (Z.eqb_spec 0 (size - 2)); nia.
Qed.
Lemma init0_copy : forall st, reach st -> 0 < sweeps -> (ipos 0 <= pc st (TInit 0))%nat -> finished P st (TCopy 0).
Proof using Hs Hb Hnb Hdiv Hth.
  intros st R Lw L. pose proof sweeps_le. apply copy_of_rels; [exact R|split; [lia|apply nt_lt; lia]|]. pose proof (acq_init st 0 R ltac:(lia) L). lia.
Qed.

(** ** No deadlock *)
Lemma zsum_two : forall {X} (f : X -> Z) l t u, NoDup l -> In t l -> In u l -> t <> u -> (forall x, In x l -> x <> t -> x <> u -> f x = 0) -> zsum f l = f t + f u.
Proof.
  intros X f l t u ND It Iu N O. induction ND as [|x l N1 N2 IH]; [destruct It|]. rewrite zsum_cons.
  assert (O' : forall y, In y l -> y <> t -> y <> u -> f y = 0) by (intros; apply O; [right|..]; assumption).
  destruct It as [->|It], Iu as [->|Iu]; [congruence| | |].
  - rewrite (zsum_single f l u N2 Iu); [lia|]. intros y Iy Ny. apply O'; [exact Iy|intros ->; contradiction|exact Ny].
  - rewrite (zsum_single f l t N2 It); [lia|]. intros y Iy Ny. apply O'; [exact Iy|exact Ny|intros ->; contradiction].
  - rewrite (O x (or_introl eq_refl)) by (intros ->; contradiction). rewrite (IH It Iu O'). lia.
Qed.
Lemma acqs_sum : forall (st : sstate thread loc (F K)) s, 0 <= s < sweeps -> zsum (fun t => acqs s t (pc st t)) ths = acqs s (TInit s) (pc st (TInit s)) + acqs s (TRun s) (pc st (TRun s)).
Proof using Hs Hb Hnb Hdiv Hth.
  intros st s Ls. pose proof sweeps_le. apply (zsum_two (fun t => acqs s t (pc st t)) ths (TInit s) (TRun s) threads_nodup); [apply in_threads; split; [lia|exact Ls]|apply in_threads; split; [lia|exact Ls]|discriminate|].
  intros u Iu N1 N2. destruct (Z.eq_dec (acqs s u (pc st u)) 0) as [E|N]; [exact E|]. destruct (who_acqs _ _ _ Iu N) as [E|[E|[_ E]]]; try congruence. unfold last_sem in E. lia.
Qed.
Lemma acqs_last : forall (st : sstate thread loc (F K)), 0 < size -> zsum (fun t => acqs (last_sem cplx size) t (pc st t)) ths = acqs (last_sem cplx size) TFin (pc st TFin).
Proof using Hs Hb Hnb Hdiv Hth.
  intros st SZ. apply (zsum_single (fun t => acqs (last_sem cplx size) t (pc st t)) ths TFin threads_nodup); [apply in_threads; auto|].
  intros u Iu NE. destruct (Z.eq_dec (acqs (last_sem cplx size) u (pc st u)) 0) as [E|N]; [exact E|]. destruct (who_acqs _ _ _ Iu N) as [E|[E|[E _]]]; [| |congruence];
    subst u; apply in_threads in Iu as (_ & Iu); unfold last_sem in Iu; lia.
Qed.
Lemma rels0_total : forall st, 0 < size -> reach st -> (forall k, 0 <= k < nt -> finished P st (TRel k)) ->
  1 + (if 0 <? sweeps then steps 0 else 0) <= zsum (fun t => rels 0 t (pc st t)) ths.
Proof using Hs Hb Hnb Hdiv Hth.
  intros st SZ R F. rewrite rels0_sum by exact SZ. assert (N1 : 0 < nt) by (apply nt_lt; lia).
  rewrite (zsum_ext _ nrel) by (intros k Ik; apply in_zrange in Ik; specialize (F k Ik); unfold finished in F; rewrite F; cbn [prog b2t]; rewrite trel_rels by lia; rewrite Nat.eqb_refl; reflexivity).
  replace nt with (nt - 1 + 1) by lia. rewrite zrange_snoc by lia. rewrite zsum_app. rewrite (zsum_ext nrel (fun _ => nb / b)) by (intros k Ik; apply in_zrange in Ik; unfold nrel; destruct (Z.ltb_spec k (nt - 1)); [reflexivity|lia]).
  rewrite zsum_const by lia. cbn [zsum fold_right]. unfold nrel. destruct (Z.ltb_spec (nt - 1) (nt - 1)); [lia|].
  set (c := ceil_div (size - (nt - 1) * nb) b). assert (C : ~ c < ceil_div (size - (nt - 1) * nb) b) by (unfold c; lia). rewrite ceil_div_lt in C by lia.
  assert (0 < c) by (apply ceil_div_lt; [lia|]; assert (nt - 1 < nt) by lia; pose proof (proj1 (nt_lt (nt - 1)) ltac:(lia)); lia).
  destruct nb_b as (q & EQ & Lq). replace (nb / b) with q by (rewrite EQ, Z.div_mul; lia).
  destruct (Z.ltb_spec 0 sweeps); [|nia]. assert (steps 0 <= (nt - 1) * q + c); [|lia].
  destruct (Z_lt_le_dec ((nt - 1) * q + c) (steps 0)) as [X|X]; [|exact X]. exfalso. apply steps_lt in X; [|lia]. destruct (Z.eqb_spec 0 (size - 2)); nia.
Qed.
Theorem b2t_progress : forall st, reach st -> sfinal P st \/ exists st', sstep thread_eq P st st'.
Proof using Hs Hb Hnb Hdiv Hth.
  intros st R. destruct (step_or_blocked thread_eq P st) as [E|B]; [right; exact E|left].
  destruct (Z.eq_dec size 0) as [SZ0|SZ0]; [intros t It; cbn [threads b2t] in It; apply in_threads in It; lia|]. assert (SZ : 0 < size) by lia.
  assert (BC := fun t It => blocked_cases thread_eq P m0 st t R (B t It)). cbn [threads b2t] in BC. clear B.
  assert (CI : forall t x, cur P st t = Some x -> In x (prg t)) by (intros t x E; eapply nth_error_In; exact E).
  assert (SC := fun s => sem_count thread_eq P threads_nodup m0 st R s). cbn [threads b2t] in SC.
  assert (FC : forall k, 0 <= k < nt -> finished P st (TCopy k)).
  { intros k Lk. destruct (BC (TCopy k)) as [F|[(s & E & _)|(u & E & _)]]; [apply in_threads; auto|exact F| |]; exfalso; apply CI in E; cbn [b2t_prog] in E;
      (destruct E as [E|E]; [discriminate|]); (destruct (k <? nt - 1); [destruct E as [E|[]]; discriminate|destruct E]). }
  assert (FR : forall k, 0 <= k < nt -> finished P st (TRel k)).
  { intros k [L0 Lk]. revert Lk. pattern k. apply natlike_rec2; [| |exact L0].
    - intros Lk. destruct (BC (TRel 0)) as [F|[(s & E & _)|(u & E & NF)]]; [apply in_threads; auto with zarith|exact F| |]; exfalso; apply CI in E; cbn in E.
      + destruct E as [E|[E|[]]]; discriminate.
      + destruct E as [E|[E|[]]]; [|discriminate]. inversion E; subst. apply NF. apply FC. lia.
    - intros j Lj IH Lk. destruct (BC (TRel (Z.succ j))) as [F|[(s & E & _)|(u & E & NF)]]; [apply in_threads; auto with zarith|exact F| |]; exfalso; apply CI in E; cbn [b2t_prog] in E; (destruct (Z.ltb_spec 0 (Z.succ j)); [|lia]); cbn [app In] in E.
      + destruct E as [E|[E|[E|[]]]]; discriminate.
      + destruct E as [E|[E|[E|[]]]]; [| |discriminate]; inversion E; subst; apply NF; [apply FC; lia|]. replace (Z.succ j - 1) with j by lia. apply IH. lia. }
  assert (RT := rels0_total st SZ R FR).
  assert (FS : forall s, 0 <= s -> s < sweeps -> finished P st (TInit s) /\ finished P st (TRun s)).
  { intros s L0. apply (Zlt_0_ind (fun s => s < sweeps -> finished P st (TInit s) /\ finished P st (TRun s))); [|exact L0]. clear s L0. intros s IH L0 Ls. pose proof (steps_pos s (conj L0 Ls)) as SP.
    assert (RS : 1 + steps s <= zsum (fun t => rels s t (pc st t)) ths).
    { destruct (Z.eq_dec s 0) as [->|NZ]; [destruct (Z.ltb_spec 0 sweeps); lia|]. pose proof (rels_sum st (s - 1) ltac:(lia)) as RS. replace (s - 1 + 1) with s in RS by lia. rewrite RS. clear RS. destruct (IH (s - 1) ltac:(lia) ltac:(lia)) as [_ F].
      pose proof (steps_pos (s - 1) ltac:(lia)). pose proof (steps_next (s - 1) ltac:(lia) ltac:(lia)) as SN. replace (s - 1 + 1) with s in * by lia.
      unfold finished in F. rewrite F. cbn [prog b2t]. pose proof (run_rels_end (s - 1) ltac:(lia)) as RE. replace (s - 1 + 1) with s in RE by lia. rewrite RE. lia. }
    assert (FI : finished P st (TInit s)).
    { destruct (BC (TInit s)) as [F|[(u & E & NS)|(u & E & NF)]]; [apply in_threads; auto|exact F| |]; exfalso; assert (E' := CI _ _ E); cbn [b2t_prog] in E'.
      - assert (u = s). { apply in_app_or in E' as [E'|[E'|[E'|E']]]; [destruct (mw <=? s); [destruct E' as [E'|[]]; discriminate|destruct E']|inversion E'; reflexivity|discriminate|]. destruct (_ =? 0); [destruct E' as [E'|[]]; discriminate|destruct E']. }
        subst u. specialize (SC s). rewrite acqs_sum in SC by lia.
        assert (P0 : pc st (TRun s) = 0%nat). { destruct (pc st (TRun s)) eqn:PE; [reflexivity|]. exfalso. assert (F : finished P st (TInit s)) by (apply init_done; [exact R|auto|rewrite PE; lia]). apply cur_lt in E. unfold finished in F. lia. }
        pose proof (acqs_next P s (TInit s) _ _ E) as AN. rewrite init_acqs in AN. cbn [acq1] in AN. rewrite Z.eqb_refl in AN. pose proof (acqs_nonneg s (TInit s) (pc st (TInit s))).
        rewrite P0 in SC. change (acqs s (TRun s) 0) with 0 in SC. destruct (_ <=? _)%nat in AN; lia.
      - apply in_app_or in E' as [E'|[E'|[E'|E']]]; try discriminate; [|destruct (_ =? 0); [destruct E' as [E'|[]]; discriminate|destruct E']].
        destruct (Z.leb_spec mw s); [|destruct E']. destruct E' as [E'|[]]. inversion E'; subst. apply NF. pose proof (mw_pos SZ). apply IH; lia. }
    split; [exact FI|]. destruct (BC (TRun s)) as [F|[(u & E & NS)|(u & E & NF)]]; [apply in_threads; auto|exact F| |]; exfalso; assert (E' := CI _ _ E); apply in_run in E'; try lia;
      destruct E' as [E'|[E'|[E'|(t & _ & [E'|E'])]]]; try discriminate; inversion E'; subst u.
    - specialize (SC s). rewrite acqs_sum in SC by lia. pose proof (acqs_next P s (TRun s) _ _ E) as AN. cbn [acq1] in AN. rewrite Z.eqb_refl in AN.
      pose proof (cur_lt P st _ _ E) as CL. pose proof (acqs_mono s (TRun s) (S (pc st (TRun s))) (length (prg (TRun s)))) as AM. specialize (AM ltac:(cbn [prog b2t] in CL; lia)). rewrite run_acqs_end in AM by lia.
      rewrite init_acqs in SC. destruct (_ <=? _)%nat in SC; lia.
    - apply NF. exact FI. }
  assert (FF : finished P st TFin).
  { destruct (BC TFin) as [F|[(u & E & NS)|(u & E & NF)]]; [apply in_threads; auto|exact F| |]; exfalso; assert (E' := CI _ _ E); cbn [b2t_prog] in E'; destruct E' as [E'|[]]; inversion E'; subst u.
    specialize (SC (last_sem cplx size)). rewrite acqs_last in SC by exact SZ. pose proof (cur_lt P st _ _ E) as CL. cbn [prog b2t b2t_prog length] in CL. assert (P0 : pc st TFin = 0%nat) by lia. rewrite P0 in SC. change (acqs (last_sem cplx size) TFin 0) with 0 in SC.
    assert (1 <= zsum (fun t => rels (last_sem cplx size) t (pc st t)) ths); [|lia].
    destruct (Z_lt_le_dec 0 sweeps) as [L|L].
    - replace (last_sem cplx size) with (sweeps - 1 + 1) by (unfold last_sem; lia). rewrite rels_sum by lia. destruct (FS (sweeps - 1) ltac:(lia) ltac:(lia)) as [_ F]. unfold finished in F. rewrite F. cbn [prog b2t].
      pose proof (steps_pos (sweeps - 1) ltac:(lia)). rewrite run_rels_end by lia. lia.
    - replace (last_sem cplx size) with 0 by (unfold last_sem; lia). destruct (Z.ltb_spec 0 sweeps); lia. }
  assert (FT1 : extra_tri cplx size nb = true -> finished P st (TTri (size - 1))).
  { intros EX. destruct (BC (TTri (size - 1))) as [F|[(u & E & NS)|(u & E & NF)]]; [apply in_threads; auto|exact F| |]; exfalso; assert (E' := CI _ _ E); cbn [b2t_prog] in E';
      (destruct (Z.eqb_spec (size - 1) size); [lia|]); cbn in E'; destruct E' as [E'|[E'|[]]]; inversion E'; subst. contradiction. }
  intros t It. cbn [threads b2t] in It. assert (It' := It). apply in_threads in It' as (_ & It'). destruct t as [k|k|s|s| |i]; [apply FC|apply FR|apply FS|apply FS|exact FF|]; try lia.
  destruct It' as [->|[-> EX]]; [|apply FT1; exact EX].
  destruct (BC (TTri size) It) as [F|[(u & E & NS)|(u & E & NF)]]; [exact F| |]; exfalso; assert (E' := CI _ _ E); cbn [b2t_prog] in E'; rewrite Z.eqb_refl in E'; cbn [andb] in E'.
  - destruct E' as [E'|E']; [discriminate|]. apply in_app_or in E' as [E'|[E'|[]]]; [|discriminate]. destruct (_ && _); [destruct E' as [E'|[]]; discriminate|destruct E'].
  - destruct E' as [E'|E']; [inversion E'; subst; contradiction|]. apply in_app_or in E' as [E'|[E'|[]]]; [|discriminate]. destruct (_ && _) eqn:C; [|destruct E']. apply andb_prop in C as [EX _].
    destruct E' as [E'|[]]. inversion E'; subst. apply NF. apply FT1. exact EX.
Qed.

(** ** Conflicting actions are ordered *)
Definition key (a : act) : Z * Z * Z :=
  match a with
  | CopyD k => (0, k, 0) | CopyO k => (0, k, 1)
  | Init s => (1, s, -2) | TriS s => (1, s, -1) | SaveV s t => (1, s, 2 * t) | Step s t => (1, s, 2 * t + 1)
  | TriF i => (2, i, 0)
  end.
Definition klt (a b : act) : Prop :=
  let '(x, y, z) := key a in let '(x', y', z') := key b in x < x' \/ x = x' /\ (y < y' \/ y = y' /\ z < z').
Definition actf (st : sstate thread loc (F K)) (a : act) : Prop := (pos a < pc st (owner a))%nat.
Lemma actf_fin : forall st a, 0 < size -> act_ok a -> actf st a -> finished_act P st a.
Proof using Hs Hb Hnb Hdiv Hth. intros st a SZ OK L. destruct (act_at a SZ OK) as [It E]. exists (owner a), (pos a). split; [exact It|]. split; [exact E|exact L]. Qed.
Lemma begun_pos : forall st a, begun P st a -> 0 < size /\ act_ok a /\ (pos a <= pc st (owner a))%nat.
Proof using Hs Hb Hnb Hdiv Hth.
  intros st a [(t & i & It & E & L)|(t & It & E & _)].
  - assert (SZ : 0 < size) by (apply in_threads in It; tauto). destruct (act_pos t i a It E) as (-> & -> & OK). split; [exact SZ|]. split; [exact OK|]. apply Nat.lt_le_incl. exact L.
  - assert (SZ : 0 < size) by (apply in_threads in It; tauto). unfold cur in E. destruct (act_pos t _ a It E) as (-> & E2 & OK). split; [exact SZ|]. split; [exact OK|]. rewrite <- E2. lia.
Qed.
Lemma fin_actf : forall st a, 0 < size -> act_ok a -> finished P st (owner a) -> actf st a.
Proof using Hs Hb Hnb Hdiv Hth.
  intros st a SZ OK F. destruct (act_at a SZ OK) as [It E]. unfold actf. unfold finished in F. rewrite F. apply nth_error_Some. cbn [prog b2t]. rewrite E. discriminate.
Qed.
(** what a conflict is *)
Lemma conflict_cases : forall a b', sconflict P a b' ->
  (exists c, fst (cols_of size nb b a) <= c < snd (cols_of size nb b a) /\ fst (cols_of size nb b b') <= c < snd (cols_of size nb b b') /\ (is_tri a && is_tri b' = false)) \/
  (exists w, uses_worker size b nthreads a w = true /\ uses_worker size b nthreads b' w = true) \/
  (is_tri a = true /\ is_tri b' = true /\ exists i, fst (tri_range size nb b a) <= i < snd (tri_range size nb b a) /\ fst (tri_range size nb b b') <= i < snd (tri_range size nb b b')) \/
  (exists s t t', a = SaveV s t /\ b' = SaveV s t').
Proof using Hs Hb Hnb Hdiv Hth.
  assert (TL : forall a, tri_last size nb a <= snd (tri_range size nb b a)).
  { intros [k|k|s|s|s t|s t|i]; cbn [tri_last tri_range cols_of snd]; try lia. unfold tri_ne, tri_nd. lia. }
  assert (TT : forall a i, (fst (tri_range size nb b a) <=? i) && (i <? snd (tri_range size nb b a)) = true -> is_tri a = true).
  { intros [k|k|s|s|s t|s t|j] i E; try reflexivity; cbn [tri_range fst snd] in E; lia. }
  intros a b' (l & H). cbn [wr rd b2t] in H. destruct l as [z|w|w i|i|i|i j]; cbn [b2t_wr b2t_rd] in H; unfold touches in H.
  - left. exists (z / (2 * b)). destruct (is_tri a), (is_tri b'); cbn in *; try (rewrite ?andb_false_r in H; exfalso; intuition congruence); (split; [lia|split; [lia|reflexivity]]).
  - right. left. exists w. split; destruct H as [[H1 [H2|H2]]|[H1 H2]]; try (apply andb_prop in H1 as [H1 _]); try (apply andb_prop in H2 as [H2 _]); assumption.
  - right. left. exists w. split; destruct H as [[H1 [H2|H2]]|[H1 H2]]; try (apply andb_prop in H1 as [H1 _]); try (apply andb_prop in H2 as [H2 _]); assumption.
  - right. right. left. destruct H as [[H1 [H2|H2]]|[H1 H2]]; try discriminate. split; [apply (TT a i H1)|]. split; [apply (TT b' i H2)|]. exists i. lia.
  - right. right. left. destruct H as [[H1 [H2|H2]]|[H1 H2]]; try discriminate. pose proof (TL a). pose proof (TL b').
    split; [apply (TT a i); lia|]. split; [apply (TT b' i); lia|]. exists i. lia.
  - right. right. right. destruct H as [[H1 [H2|H2]]|[H1 H2]]; try discriminate. destruct a; try discriminate. destruct b'; try discriminate.
    apply andb_prop in H1 as [H1 _]. apply andb_prop in H1 as [H1 _]. apply andb_prop in H2 as [H2 _]. apply andb_prop in H2 as [H2 _]. apply Z.eqb_eq in H1, H2. subst. eauto.
Qed.
(** the pipeline of a worker *)
Lemma worker_free : forall st s s', reach st -> 0 <= s' < s -> s < sweeps -> worker size b nthreads s = worker size b nthreads s' -> (ipos s <= pc st (TInit s))%nat -> finished P st (TRun s').
Proof using Hs Hb Hnb Hdiv Hth.
  intros st s s' R L Ls W LP. pose proof sweeps_le. assert (SZ : 0 < size) by lia. pose proof (mw_pos SZ) as MP. unfold worker in W.
  revert L Ls W LP. assert (L0 : 0 <= s \/ s < 0) by lia. destruct L0 as [L0|L0]; [|lia]. revert s'. pattern s. apply Zlt_0_ind; [|exact L0]. clear s L0. intros s IH L0 s' L Ls W LP.
  assert (MS : mw <= s). { destruct (Z_lt_le_dec s mw) as [C|C]; [|exact C]. rewrite !Z.mod_small in W by lia. lia. }
  assert (F : finished P st (TRun (s - mw))).
  { apply (joined thread_eq P m0 st R (TInit s) 0); [apply in_threads; split; [lia|lia]| |]; unfold ipos in LP; apply Z.leb_le in MS as MS'; rewrite MS' in *; [|lia]. cbn [prog b2t b2t_prog]. rewrite MS'. reflexivity. }
  destruct (Z.eq_dec s' (s - mw)) as [->|NE]; [exact F|].
  assert (L2 : s' < s - mw).
  { pose proof (Z.div_mod s mw ltac:(lia)) as D1. pose proof (Z.div_mod s' mw ltac:(lia)) as D2. assert (s / mw <> s' / mw) by (intros E; rewrite E, W in D1; lia). assert (s' / mw <= s / mw) by (apply Z.div_le_mono; lia). assert (s' / mw <= s / mw - 1) by lia. nia. }
  apply (IH (s - mw) ltac:(lia) s' ltac:(lia) ltac:(lia)).
  - rewrite <- W. replace s with (s - mw + 1 * mw) at 2 by lia. rewrite Z.mod_add by lia. reflexivity.
  - assert (FI : finished P st (TInit (s - mw))). { apply init_done; [exact R|lia|]. unfold finished in F. rewrite F. cbn [prog b2t]. pose proof (steps_pos (s - mw) ltac:(lia)). rewrite run_length by lia. lia. }
    unfold finished in FI. rewrite FI. apply ipos_le.
Qed.
Lemma all_done : forall st a i, reach st -> act_ok (TriF i) -> act_ok a -> 0 < size -> (0 < pc st (TTri i))%nat -> is_tri a = false \/ (exists s, a = TriS s) -> actf st a.
Proof using Hs Hb Hnb Hdiv Hth.
  intros st a i R OKi OK SZ LP TA. pose proof sweeps_le as SL.
  assert (FF : finished P st TFin) by (apply (joined thread_eq P m0 st R (TTri i) 0); [apply in_threads; split; [exact SZ|exact OKi]|reflexivity|exact LP]).
  assert (R1 : 1 <= zsum (fun t => rels (last_sem cplx size) t (pc st t)) ths).
  { etransitivity; [|apply acq_le_rel; exact R]. rewrite acqs_last by exact SZ. unfold finished in FF. rewrite FF, fin_acqs. cbn. lia. }
  destruct nb_b as (q & EQ & Lq).
  destruct (Z_lt_le_dec 0 sweeps) as [L|L].
  - assert (DL : D st (sweeps - 1) 1).
    { apply D_of_rels; [exact R|lia|]. replace (last_sem cplx size) with (sweeps - 1 + 1) in R1 by (unfold last_sem; lia). rewrite rels_sum in R1 by lia. exact R1. }
    assert (DA : forall s, 0 <= s < sweeps -> D st s (sweeps - s)).
    { intros s Ls. pose proof (D_down st (sweeps - 1) 1 (sweeps - 1 - s) R ltac:(lia) ltac:(lia) ltac:(lia) DL) as H. replace (sweeps - 1 - (sweeps - 1 - s)) with s in H by lia. replace (1 + (sweeps - 1 - s)) with (sweeps - s) in H by lia. exact H. }
    assert (DS : forall s t, 0 <= s < sweeps -> 0 <= t < steps s -> (pos (Step s t) < pc st (TRun s))%nat).
    { intros s t Ls Lt. apply DA; [exact Ls|exact Lt|]. destruct Lt as [Lt0 Lt]. apply steps_lt in Lt; [|exact Ls]. assert (size - 2 <= sweeps) by (unfold nr_sweeps; destruct cplx; lia).
      destruct (Z.eqb_spec s (size - 2)); [lia|]. nia. }
    assert (IA : forall s, 0 <= s < sweeps -> finished P st (TInit s)) by (intros s Ls; apply init_done; [exact R|exact Ls|]; apply (D_run st s (sweeps - s) R Ls ltac:(lia)); apply DA; exact Ls).
    assert (CA : forall k, 0 <= k < nt -> finished P st (TCopy k)).
    { intros k Lk. apply (D_copy st sweeps k R L ltac:(lia)); [specialize (DA 0 ltac:(lia)); rewrite Z.sub_0_r in DA; exact DA|exact Lk|]. assert (k * nb < size) by (apply nt_lt; lia).
      assert (size - 2 <= sweeps) by (unfold nr_sweeps; destruct cplx; lia). nia. }
    destruct a as [k|k|s|s|s t|s t|j]; try (apply fin_actf; [exact SZ|exact OK|]; cbn [owner]; cbn [act_ok] in OK; first [apply CA; lia|apply IA; lia|apply IA; tauto]).
    + cbn [act_ok] in OK. unfold actf. cbn [owner]. specialize (DS s t ltac:(tauto) ltac:(tauto)). cbn [pos] in *. lia.
    + cbn [act_ok] in OK. unfold actf. cbn [owner]. apply DS; tauto.
    + exfalso. destruct TA as [TA|(s & TA)]; discriminate.
  - replace (last_sem cplx size) with 0 in R1 by (unfold last_sem; lia).
    assert (CA : forall k, 0 <= k < nt -> finished P st (TCopy k)).
    { intros k Lk. apply copy_of_rels; [exact R|exact Lk|]. assert (k * nb < size) by (apply nt_lt; lia). assert (size <= 2) by (unfold nr_sweeps in L; destruct cplx; lia). assert (k = 0) by nia. subst k. lia. }
    destruct a as [k|k|s|s|s t|s t|j]; try (cbn [act_ok] in OK; exfalso; lia); try (apply fin_actf; [exact SZ|exact OK|]; cbn [owner]; cbn [act_ok] in OK; apply CA; lia).
    exfalso. destruct TA as [TA|(s & TA)]; discriminate.
Qed.
(** facts about a sweep whose first action has begun *)
Lemma sweep_begun : forall st s, reach st -> 0 <= s < sweeps -> (ipos s <= pc st (TInit s))%nat ->
  (forall s', 0 <= s' < s -> D st s' (s - s') /\ finished P st (TInit s')) /\ (forall k, 0 <= k < nt -> k * nb <= s -> finished P st (TCopy k)).
Proof using Hs Hb Hnb Hdiv Hth.
  intros st s R Ls LP. destruct (Z.eq_dec s 0) as [->|NZ].
  - split; [intros s' L; lia|]. intros k Lk L. assert (k = 0) by nia. subst k. apply init0_copy; [exact R|lia|exact LP].
  - assert (D1 : D st (s - 1) 1). { apply D_init; [exact R|lia|lia|]. replace (s - 1 + 1) with s by lia. exact LP. }
    assert (DA : forall s', 0 <= s' < s -> D st s' (s - s')).
    { intros s' L. pose proof (D_down st (s - 1) 1 (s - 1 - s') R ltac:(lia) ltac:(lia) ltac:(lia) D1) as H. replace (s - 1 - (s - 1 - s')) with s' in H by lia. replace (1 + (s - 1 - s')) with (s - s') in H by lia. exact H. }
    split.
    + intros s' L. split; [apply DA; exact L|]. apply init_done; [exact R|lia|]. apply (D_run st s' (s - s') R); [lia|lia|apply DA; exact L].
    + intros k Lk L. apply (D_copy st s k R ltac:(lia) ltac:(lia)); [specialize (DA 0 ltac:(lia)); rewrite Z.sub_0_r in DA; exact DA|exact Lk|nia].
Qed.
Theorem b2t_key : forall st a b', reach st -> begun P st b' -> act_ok a -> klt a b' -> sconflict P a b' -> finished_act P st a.
Proof using Hs Hb Hnb Hdiv Hth.
  intros st a b' R B OKa LT CF. destruct (begun_pos st b' B) as (SZ & OKb & LP). clear B. pose proof sweeps_le as SL. apply actf_fin; [exact SZ|exact OKa|].
  assert (MP := mw_pos SZ). apply conflict_cases in CF.
  assert (TZ : forall k, 0 <= k < nt -> 0 < tsz size nb k <= nb) by (intros k Lk; unfold tsz; assert (k * nb < size) by (apply nt_lt; lia); lia).
  assert (INI : forall s, 0 <= s < sweeps -> finished P st (TInit s) -> (ipos s <= pc st (TInit s))%nat) by (intros s Ls F; unfold finished in F; rewrite F; apply ipos_le).
  assert (RI : forall s, 0 <= s < sweeps -> (0 < pc st (TRun s))%nat -> finished P st (TInit s)) by (intros s Ls L; apply init_done; assumption).
  unfold klt in LT.
  destruct b' as [k|k|s|s|s t|s t|i].
  - (* CopyD *) exfalso. destruct a as [k'|k'|s'|s'|s' t'|s' t'|i']; cbn [key] in LT; try lia; cbn [act_ok] in OKa, OKb;
      destruct CF as [(c & C1 & C2 & _)|[(w & W1 & _)|[(X & _)|(s0 & t0 & t1 & X & _)]]]; try discriminate; cbn [cols_of fst snd] in C1, C2; pose proof (TZ k OKb); pose proof (TZ k' ltac:(lia)); nia.
  - (* CopyO *) destruct a as [k'|k'|s'|s'|s' t'|s' t'|i']; cbn [key] in LT; try lia; cbn [act_ok] in OKa, OKb;
      destruct CF as [(c & C1 & C2 & _)|[(w & W1 & _)|[(X & _)|(s0 & t0 & t1 & X & _)]]]; try discriminate; cbn [cols_of fst snd] in C1, C2; pose proof (TZ k ltac:(lia)); pose proof (TZ k' ltac:(lia)).
    + assert (k' = k) by nia. subst k'. unfold actf. cbn [pos owner] in *. lia.
    + exfalso. nia.
  - (* Init *) cbn [act_ok pos owner] in OKb, LP. destruct (sweep_begun st s R OKb LP) as [SB CB].
    assert (WK : forall s', 0 <= s' < s -> worker size b nthreads s = worker size b nthreads s' -> finished P st (TRun s')) by (intros s' L W; apply (worker_free st s s' R L ltac:(lia) W LP)).
    destruct a as [k'|k'|s'|s'|s' t'|s' t'|i']; cbn [key] in LT; cbn [act_ok] in OKa; try (exfalso; lia).
    + apply fin_actf; [exact SZ|exact OKa|]. destruct CF as [(c & C1 & C2 & _)|[(w & W1 & _)|[(X & _)|(s0 & t0 & t1 & X & _)]]]; try discriminate. cbn [cols_of fst snd] in C1, C2. apply CB; lia.
    + apply fin_actf; [exact SZ|exact OKa|]. destruct CF as [(c & C1 & C2 & _)|[(w & W1 & _)|[(X & _)|(s0 & t0 & t1 & X & _)]]]; try discriminate. cbn [cols_of fst snd] in C1, C2. apply CB; lia.
    + apply fin_actf; [exact SZ|exact OKa|]. apply SB. lia.
    + apply fin_actf; [exact SZ|exact OKa|]. apply SB. lia.
    + destruct CF as [(c & C1 & C2 & _)|[(w & W1 & W2)|[(X & _)|(s0 & t0 & t1 & _ & X)]]]; try discriminate; [cbn [cols_of fst snd] in C1; lia|].
      cbn [uses_worker] in W1, W2. apply Z.eqb_eq in W1, W2. apply fin_actf; [exact SZ|exact OKa|]. apply WK; [lia|congruence].
    + destruct CF as [(c & C1 & C2 & _)|[(w & W1 & W2)|[(X & _)|(s0 & t0 & t1 & _ & X)]]]; try discriminate.
      * cbn [cols_of fst snd] in C1, C2. unfold actf. cbn [owner]. apply (proj1 (SB s' ltac:(lia))); [tauto|]. nia.
      * cbn [uses_worker] in W1, W2. apply Z.eqb_eq in W1, W2. apply fin_actf; [exact SZ|exact OKa|]. apply WK; [lia|congruence].
  - (* TriS *) cbn [act_ok pos owner] in OKb, LP. destruct OKb as [OKb MB]. destruct (sweep_begun st s R OKb ltac:(lia)) as [SB CB].
    destruct a as [k'|k'|s'|s'|s' t'|s' t'|i']; cbn [key] in LT; cbn [act_ok] in OKa; try (exfalso; lia).
    + apply fin_actf; [exact SZ|exact OKa|]. destruct CF as [(c & C1 & C2 & _)|[(w & W1 & _)|[(X & _)|(s0 & t0 & t1 & X & _)]]]; try discriminate. cbn [cols_of fst snd] in C1, C2. apply CB; lia.
    + apply fin_actf; [exact SZ|exact OKa|]. destruct CF as [(c & C1 & C2 & _)|[(w & W1 & _)|[(X & _)|(s0 & t0 & t1 & X & _)]]]; try discriminate. cbn [cols_of fst snd] in C1, C2. apply CB; lia.
    + destruct (Z.eq_dec s' s) as [->|NE]; [unfold actf; cbn [pos owner]; lia|]. apply fin_actf; [exact SZ|exact OKa|]. apply SB. lia.
    + apply fin_actf; [exact SZ|exact OKa|]. apply SB. lia.
    + exfalso. destruct CF as [(c & C1 & C2 & _)|[(w & W1 & W2)|[(X & _)|(s0 & t0 & t1 & _ & X)]]]; try discriminate. cbn [cols_of fst snd] in C1. lia.
    + destruct CF as [(c & C1 & C2 & _)|[(w & W1 & W2)|[(X & _)|(s0 & t0 & t1 & _ & X)]]]; try discriminate.
      cbn [cols_of fst snd] in C1, C2. unfold actf. cbn [owner]. apply (proj1 (SB s' ltac:(lia))); [tauto|]. nia.
  - (* SaveV *) cbn [act_ok pos owner] in OKb, LP. destruct OKb as [OKb Lt]. assert (FI := RI s OKb ltac:(lia)). assert (LI := INI s OKb FI). destruct (sweep_begun st s R OKb LI) as [SB CB].
    assert (WK : forall s', 0 <= s' < s -> worker size b nthreads s = worker size b nthreads s' -> finished P st (TRun s')) by (intros s' L W; apply (worker_free st s s' R L ltac:(lia) W LI)).
    destruct a as [k'|k'|s'|s'|s' t'|s' t'|i']; cbn [key] in LT; cbn [act_ok] in OKa; try (exfalso; lia).
    + exfalso. destruct CF as [(c & C1 & C2 & _)|[(w & W1 & _)|[(X & _)|(s0 & t0 & t1 & X & _)]]]; try discriminate. cbn [cols_of fst snd] in C2. lia.
    + exfalso. destruct CF as [(c & C1 & C2 & _)|[(w & W1 & _)|[(X & _)|(s0 & t0 & t1 & X & _)]]]; try discriminate. cbn [cols_of fst snd] in C2. lia.
    + apply fin_actf; [exact SZ|exact OKa|]. cbn [owner]. destruct (Z.eq_dec s' s) as [->|NE]; [exact FI|]. apply SB. lia.
    + apply fin_actf; [exact SZ|exact OKa|]. cbn [owner]. destruct (Z.eq_dec s' s) as [->|NE]; [exact FI|]. apply SB. lia.
    + destruct (Z.eq_dec s' s) as [->|NE]; [unfold actf; cbn [pos owner]; lia|].
      destruct CF as [(c & C1 & C2 & _)|[(w & W1 & W2)|[(X & _)|(s0 & t0 & t1 & X1 & X2)]]]; try discriminate; [cbn [cols_of fst snd] in C2; lia| |inversion X1; inversion X2; lia].
      cbn [uses_worker] in W1, W2. apply Z.eqb_eq in W1, W2. apply fin_actf; [exact SZ|exact OKa|]. apply WK; [lia|congruence].
    + destruct (Z.eq_dec s' s) as [->|NE]; [unfold actf; cbn [pos owner]; lia|].
      destruct CF as [(c & C1 & C2 & _)|[(w & W1 & W2)|[(X & _)|(s0 & t0 & t1 & X1 & X2)]]]; try discriminate; [cbn [cols_of fst snd] in C2; lia|].
      cbn [uses_worker] in W1, W2. apply Z.eqb_eq in W1, W2. apply fin_actf; [exact SZ|exact OKa|]. apply WK; [lia|congruence].
  - (* Step *) cbn [act_ok owner] in OKb, LP. destruct OKb as [OKb Lt]. assert (LP' := LP). cbn [pos] in LP'. assert (FI := RI s OKb ltac:(lia)). assert (LI := INI s OKb FI). destruct (sweep_begun st s R OKb LI) as [SB CB].
    assert (WK : forall s', 0 <= s' < s -> worker size b nthreads s = worker size b nthreads s' -> finished P st (TRun s')) by (intros s' L W; apply (worker_free st s s' R L ltac:(lia) W LI)).
    assert (SD : forall s', 0 <= s' < s -> D st s' (t + 1 + (s - s'))).
    { intros s' L. assert (D1 : D st (s - 1) (t + 2)) by (apply D_step; [exact R|lia|lia| |]; replace (s - 1 + 1) with s by lia; assumption).
      pose proof (D_down st (s - 1) (t + 2) (s - 1 - s') R ltac:(lia) ltac:(lia) ltac:(lia) D1) as H. replace (s - 1 - (s - 1 - s')) with s' in H by lia. replace (t + 2 + (s - 1 - s')) with (t + 1 + (s - s')) in H by lia. exact H. }
    assert (CP : forall k, 0 <= k < nt -> k * nb < 1 + s + (t + 1) * b -> finished P st (TCopy k)).
    { intros k Lk L. destruct (Z.eq_dec s 0) as [->|NZ].
      - apply copy_of_rels; [exact R|exact Lk|]. pose proof (acq_init_run st 0 t R OKb Lt LP). destruct nb_b as (q & EQ & Lq). replace (nb / b) with q by (rewrite EQ, Z.div_mul; lia). rewrite EQ in L. nia.
      - apply (D_copy st (t + 1 + s) k R ltac:(lia) ltac:(lia)); [specialize (SD 0 ltac:(lia)); rewrite Z.sub_0_r in SD; exact SD|exact Lk|nia]. }
    destruct a as [k'|k'|s'|s'|s' t'|s' t'|i']; cbn [key] in LT; cbn [act_ok] in OKa; try (exfalso; lia).
    + apply fin_actf; [exact SZ|exact OKa|]. destruct CF as [(c & C1 & C2 & _)|[(w & W1 & _)|[(X & _)|(s0 & t0 & t1 & X & _)]]]; try discriminate. cbn [cols_of fst snd] in C1, C2. apply CP; lia.
    + apply fin_actf; [exact SZ|exact OKa|]. destruct CF as [(c & C1 & C2 & _)|[(w & W1 & _)|[(X & _)|(s0 & t0 & t1 & X & _)]]]; try discriminate. cbn [cols_of fst snd] in C1, C2. apply CP; lia.
    + apply fin_actf; [exact SZ|exact OKa|]. cbn [owner]. destruct (Z.eq_dec s' s) as [->|NE]; [exact FI|]. apply SB. lia.
    + apply fin_actf; [exact SZ|exact OKa|]. cbn [owner]. destruct (Z.eq_dec s' s) as [->|NE]; [exact FI|]. apply SB. lia.
    + destruct (Z.eq_dec s' s) as [->|NE]; [unfold actf; cbn [pos owner]; lia|].
      destruct CF as [(c & C1 & C2 & _)|[(w & W1 & W2)|[(X & _)|(s0 & t0 & t1 & X1 & X2)]]]; try discriminate; [cbn [cols_of fst snd] in C1; lia|].
      cbn [uses_worker] in W1, W2. apply Z.eqb_eq in W1, W2. apply fin_actf; [exact SZ|exact OKa|]. apply WK; [lia|congruence].
    + destruct (Z.eq_dec s' s) as [->|NE]; [unfold actf; cbn [pos owner]; lia|].
      destruct CF as [(c & C1 & C2 & _)|[(w & W1 & W2)|[(X & _)|(s0 & t0 & t1 & X1 & X2)]]]; try discriminate.
      * cbn [cols_of fst snd] in C1, C2. unfold actf. cbn [owner]. apply (SD s' ltac:(lia)); [tauto|]. nia.
      * cbn [uses_worker] in W1, W2. apply Z.eqb_eq in W1, W2. apply fin_actf; [exact SZ|exact OKa|]. apply WK; [lia|congruence].
  - (* TriF *) assert (LP' : (0 < pc st (TTri i))%nat) by (cbn [pos owner] in LP; unfold tpos in LP; destruct (_ && _ && _) in LP; lia).
    assert (AD := fun a OK => all_done st a i R OKb OK SZ LP').
    destruct a as [k'|k'|s'|s'|s' t'|s' t'|i']; try (apply AD; [exact OKa|left; reflexivity]); [apply AD; [exact OKa|right; eauto]|].
    cbn [key] in LT. cbn [act_ok] in OKa, OKb. destruct OKa as [->|[-> EX]]; [exfalso; lia|]. destruct OKb as [->|[-> _]]; [|exfalso; lia].
    destruct CF as [(c & _ & _ & X)|[(w & W1 & W2)|[(_ & _ & j & X1 & X2)|(s0 & t0 & t1 & X & _)]]]; try discriminate.
    cbn [tri_range cols_of fst snd] in X1, X2. unfold tri_nd, tri_start in X1, X2.
    assert (QE : Z.quot (size - 2) nb = Z.quot (size - 1) nb). { replace (size - 1 - 1) with (size - 2) in X1 by lia. set (u := Z.quot (size - 2) nb) in *. set (v := Z.quot (size - 1) nb) in *. nia. }
    apply fin_actf; [exact SZ|right; auto|]. cbn [owner].
    assert (CC : (size =? size) && extra_tri cplx size nb && (Z.quot (size - 2) nb =? Z.quot (size - 1) nb) = true) by (rewrite Z.eqb_refl, EX, QE, Z.eqb_refl; reflexivity).
    apply (joined thread_eq P m0 st R (TTri size) 1).
    + apply in_threads. split; [exact SZ|left; reflexivity].
    + cbn [prog b2t b2t_prog nth_error]. rewrite CC. reflexivity.
    + cbn [pos owner] in LP. unfold tpos in LP. rewrite CC in LP. lia.
Qed.

(** ** The sequential order *)
Definition b2t_seq : list act :=
  if size =? 0 then [] else
  flat_map (fun k => CopyD k :: (if k <? nt - 1 then [CopyO k] else [])) (zrange 0 nt) ++
  flat_map (fun s => Init s :: (if (s + 1) mod nb =? 0 then [TriS s] else []) ++ flat_map (fun t => [SaveV s t; Step s t]) (zrange 0 (steps s))) (zrange 0 sweeps) ++
  (if extra_tri cplx size nb then [TriF (size - 1)] else []) ++ [TriF size].
Lemma in_seq : forall a, In a b2t_seq <-> 0 < size /\ act_ok a.
Proof using Hs Hb Hnb Hdiv Hth.
  intros a. unfold b2t_seq. destruct (Z.eqb_spec size 0) as [E|N]; [split; [intros []|lia]|]. rewrite !in_app_iff, !in_flat_map. split.
  - intros H. split; [lia|]. destruct H as [(k & Ik & H)|[(s & Is & H)|[H|[<-|[]]]]]; [| | |left; reflexivity].
    + apply in_zrange in Ik. destruct H as [<-|H]; [exact Ik|]. destruct (Z.ltb_spec k (nt - 1)); [|destruct H]. destruct H as [<-|[]]. cbn. lia.
    + apply in_zrange in Is. destruct H as [<-|H]; [exact Is|]. apply in_app_or in H as [H|H].
      * destruct (Z.eqb_spec ((s + 1) mod nb) 0); [|destruct H]. destruct H as [<-|[]]. cbn. auto.
      * apply in_flat_map in H as (t & It & [<-|[<-|[]]]); apply in_zrange in It; cbn; auto.
    + destruct (extra_tri cplx size nb) eqn:EX; [|destruct H]. destruct H as [<-|[]]. right. auto.
  - intros (_ & OK). destruct a as [k|k|s|s|s t|s t|i]; cbn [act_ok] in OK.
    + left. exists k. split; [apply in_zrange; exact OK|left; reflexivity].
    + left. exists k. split; [apply in_zrange; lia|]. right. destruct (Z.ltb_spec k (nt - 1)); [left; reflexivity|lia].
    + right. left. exists s. split; [apply in_zrange; exact OK|left; reflexivity].
    + right. left. exists s. split; [apply in_zrange; tauto|]. right. apply in_or_app. left. destruct OK as [_ OK]. apply Z.eqb_eq in OK. rewrite OK. left. reflexivity.
    + right. left. exists s. split; [apply in_zrange; tauto|]. right. apply in_or_app. right. apply in_flat_map. exists t. split; [apply in_zrange; tauto|left; reflexivity].
    + right. left. exists s. split; [apply in_zrange; tauto|]. right. apply in_or_app. right. apply in_flat_map. exists t. split; [apply in_zrange; tauto|right; left; reflexivity].
    + right. right. destruct OK as [->|[-> EX]]; [right; left; reflexivity|]. left. rewrite EX. left. reflexivity.
Qed.
Lemma sorted_two : forall x y, klt x y -> StronglySorted klt [x; y].
Proof using. intros x y H. constructor; [apply sorted_one|]. constructor; [exact H|constructor]. Qed.
Lemma seq_sorted : StronglySorted klt b2t_seq.
Proof using Hs Hb Hnb Hdiv Hth.
  unfold b2t_seq. destruct (size =? 0); [constructor|]. apply sorted_app; [|apply sorted_app; [|apply sorted_app|]|].
  - apply sorted_flat; [apply zrange_sorted| |].
    + intros k _. destruct (k <? nt - 1); [apply sorted_two; unfold klt; cbn [key fst snd]; lia|apply sorted_one].
    + intros i j a c Ii Ij L [<-|Ia] [<-|Ic]; try (destruct (i <? nt - 1); [destruct Ia as [<-|[]]|destruct Ia]); try (destruct (j <? nt - 1); [destruct Ic as [<-|[]]|destruct Ic]); unfold klt; cbn [key fst snd]; lia.
  - apply sorted_flat; [apply zrange_sorted| |].
    + intros s _. constructor.
      * apply sorted_app; [destruct ((s + 1) mod nb =? 0); [apply sorted_one|constructor]| |].
        -- apply sorted_flat; [apply zrange_sorted|intros t _; apply sorted_two; unfold klt; cbn [key fst snd]; lia|].
           intros i j a c _ _ L [<-|[<-|[]]] [<-|[<-|[]]]; unfold klt; cbn [key fst snd]; lia.
        -- intros x y Ix Iy. destruct ((s + 1) mod nb =? 0); [|destruct Ix]. destruct Ix as [<-|[]]. apply in_flat_map in Iy as (t & It & [<-|[<-|[]]]); apply in_zrange in It; unfold klt; cbn [key fst snd]; lia.
      * apply Forall_forall. intros y Iy. apply in_app_or in Iy as [Iy|Iy].
        -- destruct ((s + 1) mod nb =? 0); [|destruct Iy]. destruct Iy as [<-|[]]. unfold klt. cbn [key]. lia.
        -- apply in_flat_map in Iy as (t & It & [<-|[<-|[]]]); apply in_zrange in It; unfold klt; cbn [key fst snd]; lia.
    + intros i j a c _ _ L Ia Ic.
      assert (G : forall s x, In x (Init s :: (if (s + 1) mod nb =? 0 then [TriS s] else []) ++ flat_map (fun t => [SaveV s t; Step s t]) (zrange 0 (steps s))) -> fst (fst (key x)) = 1 /\ snd (fst (key x)) = s).
      { intros s x [<-|Ix]; [auto|]. apply in_app_or in Ix as [Ix|Ix]; [destruct ((s + 1) mod nb =? 0); [|destruct Ix]; destruct Ix as [<-|[]]; auto|]. apply in_flat_map in Ix as (t & _ & [<-|[<-|[]]]); auto. }
      apply G in Ia. apply G in Ic. unfold klt. destruct (key a) as [[x y] z], (key c) as [[x' y'] z']. cbn [fst snd] in *. lia.
  - destruct (extra_tri cplx size nb); [apply sorted_one|constructor].
  - apply sorted_one.
  - intros x y Ix [<-|[]]. destruct (extra_tri cplx size nb); [|destruct Ix]. destruct Ix as [<-|[]]. unfold klt. cbn [key]. lia.
  - intros x y Ix Iy. apply in_flat_map in Ix as (s & _ & Ix).
    assert (fst (fst (key x)) = 1). { destruct Ix as [<-|Ix]; [reflexivity|]. apply in_app_or in Ix as [Ix|Ix]; [destruct ((s + 1) mod nb =? 0); [|destruct Ix]; destruct Ix as [<-|[]]; reflexivity|]. apply in_flat_map in Ix as (t & _ & [<-|[<-|[]]]); reflexivity. }
    assert (fst (fst (key y)) = 2). { apply in_app_or in Iy as [Iy|[<-|[]]]; [|reflexivity]. destruct (extra_tri cplx size nb); [|destruct Iy]. destruct Iy as [<-|[]]; reflexivity. }
    unfold klt. destruct (key x) as [[? ?] ?], (key y) as [[? ?] ?]. cbn [fst snd] in *. lia.
  - intros x y Ix Iy. apply in_flat_map in Ix as (k & _ & Ix).
    assert (fst (fst (key x)) = 0). { destruct Ix as [<-|Ix]; [reflexivity|]. destruct (k <? nt - 1); [|destruct Ix]. destruct Ix as [<-|[]]. reflexivity. }
    assert (1 <= fst (fst (key y))).
    { apply in_app_or in Iy as [Iy|Iy]; [apply in_flat_map in Iy as (s & _ & Iy); destruct Iy as [<-|Iy]; [cbn [key fst snd]; lia|]; apply in_app_or in Iy as [Iy|Iy]; [destruct ((s + 1) mod nb =? 0); [|destruct Iy]; destruct Iy as [<-|[]]; cbn [key fst snd]; lia|]; apply in_flat_map in Iy as (t & _ & [<-|[<-|[]]]); cbn [key fst snd]; lia|].
      apply in_app_or in Iy as [Iy|[<-|[]]]; [|cbn [key fst snd]; lia]. destruct (extra_tri cplx size nb); [|destruct Iy]. destruct Iy as [<-|[]]; cbn [key fst snd]; lia. }
    unfold klt. destruct (key x) as [[? ?] ?], (key y) as [[? ?] ?]. cbn [fst snd] in *. lia.
Qed.
End states.
End sched.
