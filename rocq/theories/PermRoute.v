(** * Routing: sender and receiver agree on the order of the packed vectors. *)
From Coq Require Import ZArith Lia List Bool Permutation Sorted.
From Verif Require Import CInt Loop DistModel TridiagModel TridiagProofs PermModel PermProofs.
Import ListNotations.
Local Open Scope Z_scope.

Lemma ssorted_eq : forall l l' : list Z, StronglySorted Z.lt l -> StronglySorted Z.lt l' -> (forall x, In x l <-> In x l') -> l = l'.
Proof.
  induction l as [|x l IH]; intros [|y l'] S S' E.
  - reflexivity.
  - exfalso. apply (E y). left. reflexivity.
  - exfalso. apply (E x). left. reflexivity.
  - inversion S as [|? ? S1 F1]; subst. inversion S' as [|? ? S2 F2]; subst. rewrite Forall_forall in F1, F2.
    assert (x = y) as ->.
    { destruct (proj1 (E x) (or_introl eq_refl)) as [Q|I]; [congruence|]. destruct (proj2 (E y) (or_introl eq_refl)) as [Q|I']; [congruence|].
      specialize (F1 y I'). specialize (F2 x I). lia. }
    f_equal. apply IH; [exact S1|exact S2|]. intros z. specialize (E z). split; intros I.
    + destruct (proj1 E (or_intror I)) as [<-|Q]; [|exact Q]. specialize (F1 y I). lia.
    + destruct (proj2 E (or_intror I)) as [<-|Q]; [|exact Q]. specialize (F2 y I). lia.
Qed.
Lemma zrange_sorted : forall lo hi, StronglySorted Z.lt (zrange lo hi).
Proof.
  intros lo hi. destruct (Z.le_gt_cases lo hi) as [L|L]; [|rewrite zrange_nil by lia; constructor].
  replace lo with (hi - (hi - lo)) by lia. assert (Ld : 0 <= hi - lo) by lia. generalize (hi - lo) Ld. clear. intros d Ld. pattern d. apply natlike_ind; [| |exact Ld].
  - rewrite zrange_nil by lia. constructor.
  - intros x Lx IH. unfold Z.succ. rewrite zrange_cons by lia. replace (hi - (x + 1) + 1) with (hi - x) by lia. constructor; [exact IH|].
    apply Forall_forall. intros y I. apply in_zrange in I. lia.
Qed.
Lemma filter_sorted : forall {A} (R : A -> A -> Prop) f l, StronglySorted R l -> StronglySorted R (filter f l).
Proof.
  intros A R f l S. induction S as [|x l S IH F]; [constructor|]. cbn. destruct (f x); [|exact IH]. constructor; [exact IH|].
  rewrite Forall_forall in *. intros y I. apply filter_In in I as [I _]. apply F. exact I.
Qed.
Lemma map_filter : forall {A B} (g : A -> B) (f : B -> bool) l, map g (filter (fun x => f (g x)) l) = filter f (map g l).
Proof. intros A B g f l. induction l as [|x l IH]; [reflexivity|]. cbn. destruct (f (g x)); cbn; rewrite IH; reflexivity. Qed.
Lemma filter_filter : forall {A} (f g : A -> bool) l, filter f (filter g l) = filter (fun x => g x && f x) l.
Proof. intros A f g l. induction l as [|x l IH]; [reflexivity|]. cbn. destruct (g x); cbn; rewrite IH; reflexivity. Qed.
(** position of l in a filtered range *)
Lemma nth_before : forall f n l, 0 <= l < n -> f l = true -> forall d, nth (length (filter f (zrange 0 l))) (filter f (zrange 0 n)) d = l.
Proof.
  intros f n l L F d. rewrite (zrange_app 0 l n) by lia. rewrite filter_app, app_nth2 by lia. rewrite Nat.sub_diag. rewrite zrange_cons by lia. cbn [filter]. rewrite F. reflexivity.
Qed.
Lemma before_lt : forall f n l, 0 <= l < n -> f l = true -> (length (filter f (zrange 0 l)) < length (filter f (zrange 0 n)))%nat.
Proof. intros f n l L F. rewrite (zrange_app 0 l n) by lia. rewrite filter_app, app_length. rewrite (zrange_cons l n) by lia. cbn [filter]. rewrite F. cbn [length]. lia. Qed.

(** all destinations together *)
Lemma count_all : forall (dest : Z -> Z) G l, 0 <= G -> (forall x, In x l -> 0 <= dest x < G) ->
  displ (fun q => Z.of_nat (length (filter (fun x => dest x =? q) l))) G = Z.of_nat (length l).
Proof.
  intros dest G l LG. induction l as [|x l IH]; intros D.
  - cbn [filter length]. clear D. pattern G. apply natlike_ind; [reflexivity| |exact LG]. intros y Ly IH. unfold Z.succ. rewrite displ_succ by lia. rewrite IH. reflexivity.
  - specialize (IH (fun y I => D y (or_intror I))). pose proof (D x (or_introl eq_refl)) as Lx.
    assert (X : forall m, 0 <= m -> displ (fun q => Z.of_nat (length (filter (fun y => dest y =? q) (x :: l)))) m =
                 displ (fun q => Z.of_nat (length (filter (fun y => dest y =? q) l))) m + if dest x <? m then 1 else 0).
    { intros m L0. pattern m. apply natlike_ind; [| |exact L0].
      - rewrite !displ_0. destruct (Z.ltb_spec (dest x) 0); lia.
      - intros k Lk IHk. unfold Z.succ. rewrite !displ_succ by lia. rewrite IHk. cbn [filter]. destruct (Z.eqb_spec (dest x) k) as [->|N].
        + cbn [length]. destruct (Z.ltb_spec k k), (Z.ltb_spec k (k + 1)); lia.
        + destruct (Z.ltb_spec (dest x) k), (Z.ltb_spec (dest x) (k + 1)); lia. }
    rewrite X by exact LG. rewrite IH. destruct (Z.ltb_spec (dest x) G); [|lia]. cbn [length]. lia.
Qed.

Section route.
Variables (n G : Z) (own p pinv : Z -> Z).
Hypothesis HG : 0 <= G.
Hypothesis OWN : forall s, 0 <= s < n -> 0 <= own s < G.
Hypothesis PR : forall s, 0 <= s < n -> 0 <= p s < n.
Hypothesis IR : forall s, 0 <= s < n -> 0 <= pinv s < n.
Hypothesis PI : forall s, 0 <= s < n -> p (pinv s) = s.
Hypothesis IP : forall s, 0 <= s < n -> pinv (p s) = s.
(** rank r has the vectors with own s = r, in ascending order *)
Record enum (r nv : Z) (l2s : Z -> Z) : Prop := {
  en_nv : 0 <= nv;
  en_rng : forall l, 0 <= l < nv -> 0 <= l2s l < n /\ own (l2s l) = r;
  en_mono : forall l l', 0 <= l < l' -> l' < nv -> l2s l < l2s l';
  en_onto : forall s, 0 <= s < n -> own s = r -> exists l, 0 <= l < nv /\ l2s l = s }.
(** the vectors that rank q sends to rank r, in ascending order of their destination *)
Definition B (q r : Z) : list Z := filter (fun s => (own s =? r) && (own (p s) =? q)) (zrange 0 n).
Lemma B_in : forall q r s, In s (B q r) <-> 0 <= s < n /\ own s = r /\ own (p s) = q.
Proof. intros. unfold B. rewrite filter_In, in_zrange, andb_true_iff, !Z.eqb_eq. reflexivity. Qed.
Lemma B_sorted : forall q r, StronglySorted Z.lt (B q r).
Proof. intros. apply filter_sorted, zrange_sorted. Qed.

Lemma enum_list : forall r nv l2s, enum r nv l2s -> map l2s (zrange 0 nv) = filter (fun s => own s =? r) (zrange 0 n).
Proof.
  intros r nv l2s [E1 E2 E3 E4]. apply ssorted_eq.
  - assert (X : forall m, 0 <= m -> m <= nv -> StronglySorted Z.lt (map l2s (zrange 0 m))).
    { intros m L0. pattern m. apply natlike_ind; [| |exact L0].
      - intros _. rewrite zrange_nil by lia. constructor.
      - intros x Lx IH Lm. unfold Z.succ in *. rewrite zrange_snoc, map_app by lia. apply ss_app. split; [apply IH; lia|]. split; [repeat constructor|].
        intros y z I1 [<-|[]]. apply in_map_iff in I1 as (l & <- & I). apply in_zrange in I. apply E3; lia. }
    apply X; lia.
  - apply filter_sorted, zrange_sorted.
  - intros x. rewrite in_map_iff, filter_In, in_zrange, Z.eqb_eq. split.
    + intros (l & <- & I). apply in_zrange in I. apply E2. lia.
    + intros [Lx Ox]. destruct (E4 x Lx Ox) as (l & Ll & <-). exists l. split; [reflexivity|]. apply in_zrange. lia.
Qed.

(** receiver *)
Lemma recv_list : forall r nv l2s q, enum r nv l2s -> map l2s (filter (fun l => own (p (l2s l)) =? q) (zrange 0 nv)) = B q r.
Proof.
  intros r nv l2s q E. rewrite (map_filter l2s (fun s => own (p s) =? q)). rewrite (enum_list r nv l2s E), filter_filter. reflexivity.
Qed.
Lemma recv_at : forall r nv l2s l, enum r nv l2s -> 0 <= l < nv ->
  let q := own (p (l2s l)) in let j := length (filter (fun l => own (p (l2s l)) =? q) (zrange 0 l)) in
  nth j (B q r) 0 = l2s l /\ (j < length (B q r))%nat.
Proof.
  intros r nv l2s l E Ll q j. rewrite <- (recv_list r nv l2s q E). split.
  - rewrite (nth_indep _ 0 (l2s 0)). 2: { rewrite map_length. apply before_lt; [lia|apply Z.eqb_refl]. }
    rewrite map_nth. f_equal. apply nth_before; [lia|apply Z.eqb_refl].
  - rewrite map_length. apply before_lt; [lia|apply Z.eqb_refl].
Qed.
(** sender *)
Lemma send_list : forall q nv l2s r, enum q nv l2s ->
  let key m := pinv (l2s m) in let V := filter (fun m => own (key m) =? r) (zrange 0 nv) in
  map key (sort_list key V) = B q r /\ length V = length (B q r) /\ forall m, In m (sort_list key V) -> 0 <= m < nv.
Proof.
  intros q nv l2s r E key V.
  assert (PV : Permutation (sort_list key V) V) by apply sort_list_perm.
  assert (KI : forall m m', 0 <= m < nv -> 0 <= m' < nv -> key m = key m' -> m = m').
  { intros m m' L L' K. unfold key in K. pose proof (en_rng _ _ _ E m L) as [R1 _]. pose proof (en_rng _ _ _ E m' L') as [R2 _].
    assert (X : l2s m = l2s m') by (rewrite <- (PI (l2s m)), <- (PI (l2s m')) by lia; rewrite K; reflexivity).
    destruct (Z.lt_total m m') as [Q|[Q|Q]]; [exfalso|exact Q|exfalso].
    - pose proof (en_mono _ _ _ E m m' ltac:(lia) ltac:(lia)). lia.
    - pose proof (en_mono _ _ _ E m' m ltac:(lia) ltac:(lia)). lia. }
  assert (RG : forall m, In m (sort_list key V) -> 0 <= m < nv).
  { intros m I. apply (Permutation_in _ PV) in I. apply filter_In in I as [I _]. apply in_zrange in I. exact I. }
  assert (EQ : map key (sort_list key V) = B q r).
  { apply ssorted_eq.
    - assert (ND : NoDup (sort_list key V)) by (eapply Permutation_NoDup; [symmetry; exact PV|apply NoDup_filter, zrange_NoDup]).
      pose proof (sort_list_sorted key V) as S. revert S ND RG. generalize (sort_list key V) as l. induction l as [|x l IH]; intros S ND RG; [constructor|].
      inversion S as [|? ? S1 F1]; subst. inversion ND as [|? ? N1 N2]; subst. cbn. constructor; [apply IH; [exact S1|exact N2|intros m I; apply RG; right; exact I]|].
      rewrite Forall_forall in *. intros y I. apply in_map_iff in I as (m & <- & I). specialize (F1 m I).
      assert (key x <> key m); [|lia]. intros K. apply KI in K; [subst; contradiction|apply RG; left; reflexivity|apply RG; right; exact I].
    - apply B_sorted.
    - intros x. rewrite B_in, in_map_iff. split.
      + intros (m & <- & I). apply (Permutation_in _ PV) in I. apply filter_In in I as [I O]. apply in_zrange in I. apply Z.eqb_eq in O.
        pose proof (en_rng _ _ _ E m I) as [R1 R2]. unfold key in *. split; [apply IR; exact R1|]. split; [exact O|]. rewrite PI by exact R1. exact R2.
      + intros (Lx & Ox & Oq). destruct (en_onto _ _ _ E (p x) (PR x Lx) Oq) as (m & Lm & Em). exists m. split; [unfold key; rewrite Em; apply IP; exact Lx|].
        apply (Permutation_in _ (Permutation_sym PV)). apply filter_In. split; [apply in_zrange; lia|]. unfold key. rewrite Em, IP by exact Lx. apply Z.eqb_eq. exact Ox. }
  split; [exact EQ|]. split; [|exact RG]. rewrite <- EQ, map_length. symmetry. apply Permutation_length. exact PV.
Qed.
Lemma send_at : forall q nv l2s r j, enum q nv l2s -> (j < length (B q r))%nat ->
  let key m := pinv (l2s m) in let m := nth j (sort_list key (filter (fun m => own (key m) =? r) (zrange 0 nv))) 0 in
  0 <= m < nv /\ l2s m = p (nth j (B q r) 0).
Proof.
  intros q nv l2s r j E L key m. destruct (send_list q nv l2s r E) as (EQ & LN & RG). set (V := filter (fun m => own (key m) =? r) (zrange 0 nv)).
  change (map key (sort_list key V) = B q r) in EQ. change (forall m, In m (sort_list key V) -> 0 <= m < nv) in RG. change (nth j (sort_list key V) 0) with m in *.
  assert (LS : (j < length (sort_list key V))%nat) by (rewrite <- (map_length key), EQ; exact L).
  assert (Lm : 0 <= m < nv) by (apply RG, nth_In, LS). split; [exact Lm|].
  rewrite <- EQ. rewrite (nth_indep _ 0 (key 0)) by (rewrite map_length; exact LS). rewrite map_nth. fold m. unfold key. symmetry. apply PI. apply (en_rng _ _ _ E). exact Lm.
Qed.
End route.
