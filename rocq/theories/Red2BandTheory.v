(** * reduction_to_band, local: the whole algorithm *)
From Coq Require Import ZArith Lia List Bool Permutation Ring.
From Verif Require Import Loop StarField DenseSpec Tiling DenseJobs TileJobs RefKernels HouseSpec HouseModel HouseProofs HouseQR TFactorProofs MultiJobs Red2BandModel Red2BandSpec Red2BandProofs.
Import ListNotations.
Local Open Scope Z_scope.

Section embed.
Context {K : starfield}.
Local Open Scope sf_scope.
Add Ring KringEm : (fring K).
(** I of size e, then Q *)
Definition emb (e : Z) (Q : mat K) : mat K := fun a c => if ((a <? e) || (c <? e))%Z then ident a c else Q (a - e)%Z (c - e)%Z.
Lemma emb_l : forall n e Q X a c, (0 <= e <= n)%Z -> (0 <= a < n)%Z ->
  mmul n (emb e Q) X a c = if (a <? e)%Z then X a c else mmul (n - e) Q (fun r c => X (e + r)%Z c) (a - e)%Z c.
Proof.
  intros n e Q X a c Le La. destruct (Z.ltb_spec a e) as [A|A].
  - rewrite (mmul_ext n (emb e Q) ident X X); [apply mmul_ident_l; exact La| |reflexivity].
    intros r _. unfold emb. destruct (Z.ltb_spec a e); [reflexivity|lia].
  - unfold mmul. rewrite (fsum_app 0 e n) by lia. rewrite (fsum_0 0 e).
    + replace (fsum e n (fun r => emb e Q a r * X r c)) with (fsum (0 + e) (n - e + e) (fun r => emb e Q a r * X r c)) by (f_equal; lia).
      rewrite fsum_shift. transitivity (fsum 0 (n - e) (fun i => emb e Q a (i + e)%Z * X (i + e)%Z c)); [ring|].
      apply fsum_ext. intros r Lr. unfold emb. destruct (Z.ltb_spec a e), (Z.ltb_spec (r + e) e); try lia. cbn [orb].
      replace (r + e - e)%Z with r by lia. replace (r + e)%Z with (e + r)%Z by lia. reflexivity.
    + intros r Lr. unfold emb. destruct (Z.ltb_spec r e); [|lia]. rewrite orb_true_r. unfold ident. destruct (Z.eqb_spec a r); [lia|ring].
Qed.
Lemma emb_adj : forall e Q a c, adj (emb e Q) a c = emb e (adj Q) a c.
Proof.
  intros e Q a c. unfold adj, opm, emb. rewrite orb_comm. destruct (_ || _); [rewrite conj_ident; apply ident_sym|reflexivity].
Qed.
Lemma emb_r : forall n e Q X a c, (0 <= e <= n)%Z -> (0 <= c < n)%Z ->
  mmul n X (adj (emb e Q)) a c = if (c <? e)%Z then X a c else mmul (n - e) (fun a r => X a (e + r)%Z) (adj Q) a (c - e)%Z.
Proof.
  intros n e Q X a c Le Lc.
  assert (H : mmul n X (adj (emb e Q)) a c = fconj (mmul n (emb e Q) (adj X) c a)).
  { change (fconj (mmul n (emb e Q) (adj X) c a)) with (adj (mmul n (emb e Q) (adj X)) a c). rewrite adj_mmul. apply mmul_ext; [|reflexivity]. intros r _. symmetry. apply adj_adj. }
  rewrite H, emb_l by assumption. destruct (Z.ltb_spec c e).
  - change (fconj (adj X c a)) with (adj (adj X) a c). apply adj_adj.
  - change (fconj (mmul (n - e) Q (fun r c0 => adj X (e + r)%Z c0) (c - e)%Z a)) with (adj (mmul (n - e) Q (fun r c0 => adj X (e + r)%Z c0)) a (c - e)%Z). rewrite adj_mmul.
    apply mmul_ext; [|reflexivity]. intros r _. unfold adj, opm. rewrite fconj_conj. reflexivity.
Qed.
Lemma emb_mul : forall n e A B, (0 <= e <= n)%Z -> meq n n (mmul n (emb e A) (emb e B)) (emb e (mmul (n - e) A B)).
Proof.
  intros n e A B Le a c La Lc. rewrite emb_l by assumption.
  change (emb e (mmul (n - e) A B) a c) with (if ((a <? e) || (c <? e))%Z then ident a c else mmul (n - e) A B (a - e)%Z (c - e)%Z).
  destruct (Z.ltb_spec a e) as [LA|LA]; cbn [orb].
  - unfold emb. destruct (Z.ltb_spec a e); [reflexivity|lia].
  - destruct (Z.ltb_spec c e) as [C|C].
    + unfold mmul. rewrite fsum_0; [unfold ident; destruct (Z.eqb_spec a c); [lia|reflexivity]|]. intros r Lr. unfold emb. destruct (Z.ltb_spec c e); [|lia]. rewrite orb_true_r.
      unfold ident. destruct (Z.eqb_spec (e + r) c); [lia|ring].
    + apply fsum_ext. intros r Lr. f_equal. unfold emb. destruct (Z.ltb_spec (e + r) e), (Z.ltb_spec c e); try lia. cbn [orb]. f_equal. lia.
Qed.
Lemma emb_ident : forall e a c, emb e (@ident K) a c = ident a c.
Proof. intros e a c. unfold emb. destruct (_ || _); [reflexivity|]. unfold ident. destruct (Z.eqb_spec (a - e) (c - e)), (Z.eqb_spec a c); try lia; reflexivity. Qed.
Lemma emb_ext : forall n e A B, meq (n - e) (n - e) A B -> meq n n (emb e A) (emb e B).
Proof. intros n e A B E a c La Lc. unfold emb. destruct (Z.ltb_spec a e), (Z.ltb_spec c e); cbn [orb]; try reflexivity. apply E; lia. Qed.
Lemma emb_unitary : forall n e Q, (0 <= e <= n)%Z -> unitary (n - e) Q -> unitary n (emb e Q).
Proof.
  intros n e Q Le [U1 U2]. split; intros a c La Lc.
  - rewrite (mmul_ext n _ (emb e (adj Q)) _ (emb e Q)) by (intros; first [apply emb_adj | reflexivity]). rewrite (emb_mul n e (adj Q) Q Le a c La Lc).
    rewrite (emb_ext n e _ _ U1 a c La Lc). apply emb_ident.
  - rewrite (mmul_ext n (emb e Q) (emb e Q) _ (emb e (adj Q))) by (intros; first [apply emb_adj | reflexivity]). rewrite (emb_mul n e Q (adj Q) Le a c La Lc).
    rewrite (emb_ext n e _ _ U2 a c La Lc). apply emb_ident.
Qed.
(** reflectors whose vectors are zero in the first e rows *)
Lemma emb_refl_prod : forall n e (V V' : mat K) (tau : Z -> F K) k, (0 <= e <= n)%Z ->
  (forall a c, (0 <= a < n)%Z -> (0 <= c < Z.of_nat k)%Z -> V a c = if (a <? e)%Z then 0 else V' (a - e)%Z c) ->
  meq n n (refl_prod n V tau k) (emb e (refl_prod (n - e) V' tau k)).
Proof.
  intros n e V V' tau k Le. induction k as [|k IH]; intros EV a c La Lc; cbn [refl_prod]; [symmetry; apply emb_ident|].
  rewrite <- (emb_mul n e _ _ Le a c La Lc). apply mmul_ext; intros r Lr.
  - apply IH; try assumption. intros a' c' La' Lc'. apply EV; [exact La'|lia].
  - unfold emb, reflector. rewrite !EV by (try assumption; lia).
    destruct (Z.ltb_spec r e), (Z.ltb_spec c e); cbn [orb]; rewrite ?fconj_0; try ring.
    f_equal. unfold ident. destruct (Z.eqb_spec (r - e) (c - e)), (Z.eqb_spec r c); try lia; reflexivity.
Qed.
Lemma refl_prod_add : forall n (V : mat K) (tau : Z -> F K) k k', meq n n (refl_prod n V tau (k + k'))
  (mmul n (refl_prod n V tau k) (refl_prod n (fun a c => V a (Z.of_nat k + c)%Z) (fun c => tau (Z.of_nat k + c)%Z) k')).
Proof.
  intros n V tau k k'. induction k' as [|k' IH]; intros a c La Lc.
  - rewrite Nat.add_0_r. cbn [refl_prod]. symmetry. apply mmul_ident_r. exact Lc.
  - rewrite <- plus_n_Sm. cbn [refl_prod]. rewrite <- mmul_assoc. apply mmul_ext; intros r Lr; [apply IH; assumption|].
    unfold reflector. replace (Z.of_nat k + Z.of_nat k')%Z with (Z.of_nat (k + k')) by lia. reflexivity.
Qed.
End embed.

Section induction.
Context {K : starfield} (kn : kernels K) (KO : kernels_ok kn) (rs : roots K).
Local Open Scope sf_scope.
Add Ring KringIn : (fring K).
Variables n mb b : Z.
Variables avail minwork avail_t : Z.
Variable ord : Z -> Z -> list Z.
Hypothesis (Hn : (0 <= n)%Z) (Hb : (0 < b)%Z) (Hmb : (0 < mb)%Z) (Hdiv : (mb mod b = 0)%Z) (AT : (0 < avail_t)%Z).
Hypothesis ORD : forall j c, (0 <= j)%Z -> (j * b < r2b_nrefls n b)%Z -> (0 <= c < n_refl n b j)%Z -> Permutation (ord j c) (zrange 0 (panel_nworkers (ptl n mb b j) avail minwork)).
Notation G := (r2b_mat mb).
Variable st0 : tstore (mat K).
Hypothesis RD0 : real_diag n (G st0).

Definition inv (j : Z) (st : tstore (mat K)) : Prop :=
  let k := Z.min (j * b) (r2b_nrefls n b) in
  let Q := refl_prod n (band_vectors b (G st)) (r2b_taus b st) (Z.to_nat k) in
  real_diag n (G st) /\ unitary n Q /\
  meq n n (conjugate n Q (herm Lower (band_upto b k (G st)))) (herm Lower (G st0)) /\
  (forall a q, (0 <= a < n)%Z -> (0 <= q < n)%Z -> (a < q)%Z -> G st a q = G st0 a q).
Lemma herm_hermitian : forall (A : mat K) i j, real_diag n A -> (0 <= i < n)%Z -> (0 <= j < n)%Z -> fconj (herm Lower A j i) = herm Lower A i j.
Proof using. intros A i j RD Li Lj. apply (herm_herm Lower n A RD i j Li Lj). Qed.
Lemma conj_hermitian : forall m (Q A : mat K) i j, (forall i j, (0 <= i < m)%Z -> (0 <= j < m)%Z -> fconj (A j i) = A i j) ->
  fconj (conjugate m Q A j i) = conjugate m Q A i j.
Proof using.
  intros m Q A i j H. unfold conjugate. change (fconj (mmul m Q (mmul m A (adj Q)) j i)) with (adj (mmul m Q (mmul m A (adj Q))) i j). rewrite adj_mmul.
  rewrite (mmul_ext m _ (mmul m Q A) _ (adj Q)); [apply mmul_assoc| |reflexivity].
  intros r Lr. rewrite adj_mmul. apply mmul_ext; [intros u Lu; apply adj_adj|]. intros u Lu. apply H; assumption.
Qed.
Lemma conj_ext : forall m (Q Q' A A' : mat K) i j, meq m m Q Q' -> meq m m A A' -> (0 <= i < m)%Z -> (0 <= j < m)%Z -> conjugate m Q A i j = conjugate m Q' A' i j.
Proof using.
  intros m Q Q' A A' i j E1 E2 Li Lj. unfold conjugate. apply mmul_ext; intros r Lr; [apply E1; assumption|]. apply mmul_ext; intros u Lu; [apply E2; assumption|].
  unfold adj, opm. rewrite E1 by assumption. reflexivity.
Qed.
Lemma conj_mul : forall m (P Q A : mat K) i j, conjugate m (mmul m P Q) A i j = conjugate m P (conjugate m Q A) i j.
Proof using.
  intros m P Q A i j. unfold conjugate. rewrite mmul_assoc. apply mmul_ext; [reflexivity|]. intros r Lr. rewrite mmul_assoc. apply mmul_ext; [reflexivity|]. intros u Lu.
  rewrite mmul_assoc. apply mmul_ext; [reflexivity|]. intros v Lv. apply adj_mmul.
Qed.

Lemma inv_step : forall j st, (0 <= j)%Z -> (j * b < r2b_nrefls n b)%Z -> inv j st -> inv (j + 1) (mrun (r2b_step kn rs n mb b avail minwork avail_t ord j) st).
Proof using KO Hn Hb Hmb Hdiv AT ORD RD0.
  intros j st J0 J1 (RD & UN & EQ & UP). set (st' := mrun (r2b_step kn rs n mb b avail minwork avail_t ord j) st).
  assert (NF : (Z.min (j * b) (r2b_nrefls n b) = j * b)%Z) by lia. rewrite NF in UN, EQ. set (k := (j * b)%Z) in *.
  set (e := e_row b j). set (m := (n - e)%Z). set (nr := n_refl n b j).
  pose proof (n_refl_pos n b Hb j J1) as NP. pose proof (n_refl_b n b j) as NB. pose proof (n_refl_n n b Hb j J0 J1) as NN. pose proof (J_n n b Hb j J0 J1) as JN. fold nr e in NP, NB, NN, JN.
  assert (KE : e = (k + b)%Z) by (unfold e, e_row, k; lia). assert (K0 : (0 <= k)%Z) by (unfold k; nia).
  assert (NF' : (Z.min ((j + 1) * b) (r2b_nrefls n b) = k + nr)%Z) by (unfold nr, n_refl, k in *; lia).
  destruct (r2b_step_ok kn KO rs n mb b avail minwork avail_t ord Hb Hmb Hdiv j J0 J1 (fun c Lc => ORD j c J0 J1 Lc) AT st) as (S1 & S2 & S3 & S4 & S5 & S6 & _).
  { intros a La. apply RD. unfold e in *. fold e in La. lia. }
  fold st' e m nr in S1, S2, S3, S4, S5, S6. change (e_col b j) with k in *.
  set (M1 := fun a q => G st' (e + a)%Z (k + q)%Z) in *. set (taus := col_vec (st' (rTau j))) in *. set (Q := refl_prod m (unit_lower M1) taus (Z.to_nat nr)) in *.
  assert (UQ : unitary m Q) by (apply refl_prod_unitary; intros c Lc; apply S1; lia).
  set (At := fun a c => G st (e + a)%Z (e + c)%Z) in *.
  assert (RDA : real_diag m At) by (intros a La; apply RD; unfold m in La; lia).
  assert (HAt : forall i l, (0 <= i < m)%Z -> (0 <= l < m)%Z -> fconj (herm Lower At l i) = herm Lower At i l) by (intros; apply (herm_herm Lower m At RDA); assumption).
  (* Q^H At Q is conjugation by Q^H *)
  assert (S3' : forall a c, mmul m (adj Q) (mmul m (herm Lower At) Q) a c = conjugate m (adj Q) (herm Lower At) a c).
  { intros a c. unfold conjugate. apply mmul_ext; [reflexivity|]. intros r _. apply mmul_ext; [reflexivity|]. intros u _. symmetry. apply adj_adj. }
  assert (RD' : real_diag n (G st')).
  { intros a La. unfold real. destruct (Z.lt_ge_cases a e) as [LA|LA].
    - rewrite S4 by lia. apply RD. exact La.
    - replace a with (e + (a - e))%Z by lia. rewrite S3 by (unfold m; lia). rewrite S3'. apply conj_hermitian. exact HAt. }
  assert (UP' : forall a q, (0 <= a < n)%Z -> (0 <= q < n)%Z -> (a < q)%Z -> G st' a q = G st0 a q).
  { intros a q La Lq AQ. rewrite S4 by lia. apply UP; assumption. }
  (* the reflectors: the old ones, then Q embedded *)
  assert (QE : meq n n (refl_prod n (band_vectors b (G st')) (r2b_taus b st') (Z.to_nat (k + nr))) (mmul n (refl_prod n (band_vectors b (G st)) (r2b_taus b st) (Z.to_nat k)) (emb e Q))).
  { intros a c La Lc. rewrite Z2Nat.inj_add by lia. rewrite (refl_prod_add n _ _ (Z.to_nat k) (Z.to_nat nr) a c La Lc). rewrite Z2Nat.id by lia.
    apply mmul_ext; intros r Lr.
    - apply refl_prod_ext; try assumption; rewrite Z2Nat.id by lia.
      + intros i x Li Lx. unfold band_vectors. destruct (Z.ltb_spec i (x + b)), (Z.eqb_spec i (x + b)); try reflexivity. apply S4; lia.
      + intros x Lx. unfold r2b_taus. rewrite S6; [reflexivity|]. assert (x / b < j)%Z by (apply Z.div_lt_upper_bound; unfold k in Lx; lia). lia.
    - unfold Q. assert (EE := emb_refl_prod n e (fun a c => band_vectors b (G st') a (k + c)%Z) (unit_lower M1) taus (Z.to_nat nr)). fold m in EE.
      rewrite <- (EE ltac:(lia)); [| |exact Lr|exact Lc].
      + apply refl_prod_ext; try assumption; [reflexivity|]. rewrite Z2Nat.id by lia. intros x Lx. unfold r2b_taus, taus, col_vec, k.
        replace (j * b + x)%Z with (x + j * b)%Z by lia. rewrite Z.div_add, Z.mod_add by lia. rewrite Z.div_small, Z.mod_small by lia. reflexivity.
      + rewrite Z2Nat.id by lia. intros i x Li Lx. unfold band_vectors, unit_lower, M1.
        destruct (Z.ltb_spec i e), (Z.ltb_spec i (k + x + b)), (Z.eqb_spec i (k + x + b)), (Z.eqb_spec (i - e) x), (Z.ltb_spec x (i - e)); try lia; try reflexivity. f_equal. lia. }
  (* the band matrix *)
  set (B := herm Lower (band_upto b k (G st))). set (B' := herm Lower (band_upto b (k + nr) (G st'))).
  assert (RB : forall (st : tstore (mat K)) (k : Z), real_diag n (G st) -> real_diag n (band_upto b k (G st))).
  { intros s x R a La. unfold real, band_upto. destruct (Z.ltb_spec (a + b) a); [lia|]. rewrite andb_false_r. apply R. exact La. }
  assert (HB : forall i l, (0 <= i < n)%Z -> (0 <= l < n)%Z -> fconj (B l i) = B i l) by (intros; apply herm_hermitian; try assumption; apply RB; assumption).
  assert (HB' : forall i l, (0 <= i < n)%Z -> (0 <= l < n)%Z -> fconj (B' l i) = B' i l) by (intros; apply herm_hermitian; try assumption; apply RB; assumption).
  assert (LOW : forall (A : mat K) a c, (c <= a)%Z -> herm Lower A a c = A a c) by (intros A a c L; unfold herm, in_tri; destruct (Z.leb_spec c a); [reflexivity|lia]).
  assert (TRAIL : meq m m (fun i l => B' (e + i)%Z (e + l)%Z) (conjugate m (adj Q) (herm Lower At))).
  { assert (H : forall i l, (0 <= l <= i)%Z -> (i < m)%Z -> B' (e + i)%Z (e + l)%Z = conjugate m (adj Q) (herm Lower At) i l).
    { intros i l Ll Li. unfold B'. rewrite LOW by lia. unfold band_upto. unfold m in Li. destruct (Z.ltb_spec (e + l) (k + nr)), (Z.ltb_spec (e + l + b) (e + i)); try lia; cbn [andb]; rewrite S3 by (unfold m; lia); apply S3'. }
    intros i l Li Ll. destruct (Z.le_gt_cases l i) as [C|C]; [apply H; lia|]. rewrite <- HB' by (unfold m in *; lia). rewrite H by lia. apply conj_hermitian. exact HAt. }
  assert (STEP : meq n n (conjugate n (emb e Q) B') B).
  { assert (H : forall a c, (0 <= c <= a)%Z -> (a < n)%Z -> conjugate n (emb e Q) B' a c = B a c).
    { intros a c Lc La. unfold conjugate. rewrite emb_l by lia. destruct (Z.ltb_spec a e) as [A|A].
      - rewrite emb_r by lia. destruct (Z.ltb_spec c e); [|lia]. unfold B, B'. rewrite !LOW by lia. unfold band_upto.
        destruct (Z.ltb_spec c (k + nr)), (Z.ltb_spec c k), (Z.ltb_spec (c + b) a); try lia; cbn [andb]; try reflexivity; apply S4; lia.
      - fold m. destruct (Z.lt_ge_cases c e) as [C|C].
        + rewrite (mmul_ext m Q Q _ (fun r c => B' (e + r)%Z c)); [|reflexivity|].
          2:{ intros r Lr. rewrite emb_r by (unfold m in Lr; lia). destruct (Z.ltb_spec c e); [reflexivity|lia]. }
          destruct (Z.lt_ge_cases c k) as [CK|CK].
          * unfold B. rewrite LOW by lia. unfold band_upto. destruct (Z.ltb_spec c k), (Z.ltb_spec (c + b) a); try lia. cbn [andb].
            unfold mmul. apply fsum_0. intros r Lr. unfold B'. rewrite LOW by lia. unfold band_upto. destruct (Z.ltb_spec c (k + nr)), (Z.ltb_spec (c + b) (e + r)); try lia. cbn [andb]. ring.
          * rewrite (mmul_ext m Q Q _ (fun r x => upper_part nr M1 r (x - k)%Z)); [|reflexivity|].
            2:{ intros r Lr. unfold B'. rewrite LOW by lia. unfold band_upto, upper_part, M1.
                destruct (Z.ltb_spec c (k + nr)), (Z.ltb_spec (c + b) (e + r)), (Z.ltb_spec (c - k) nr), (Z.ltb_spec (c - k) r); try lia; cbn [andb]; try reflexivity; f_equal; lia. }
            change (mmul m Q (fun r x => upper_part nr M1 r (x - k)%Z) (a - e)%Z c) with (mmul m Q (upper_part nr M1) (a - e)%Z (c - k)%Z). rewrite S2 by (unfold m; lia).
            unfold B. rewrite LOW by lia. unfold band_upto. destruct (Z.ltb_spec c k); [lia|]. cbn [andb]. f_equal; lia.
        + rewrite (mmul_ext m Q Q _ (fun r x => mmul m (fun i l => B' (e + i)%Z (e + l)%Z) (adj Q) r (x - e)%Z)); [|reflexivity|].
          2:{ intros r Lr. rewrite emb_r by (unfold m in Lr; lia). destruct (Z.ltb_spec c e); [lia|]. reflexivity. }
          change (mmul m Q (fun r x => mmul m (fun i l => B' (e + i)%Z (e + l)%Z) (adj Q) r (x - e)%Z) (a - e)%Z c) with (conjugate m Q (fun i l => B' (e + i)%Z (e + l)%Z) (a - e)%Z (c - e)%Z).
          rewrite (conj_ext m Q Q _ (conjugate m (adj Q) (herm Lower At))) by (first [exact TRAIL | intros ? ? ? ?; reflexivity | unfold m; lia]).
          rewrite <- conj_mul. destruct UQ as [_ UQ2].
          rewrite (conj_ext m _ ident _ (herm Lower At)) by (first [exact UQ2 | intros ? ? ? ?; reflexivity | unfold m; lia]).
          unfold conjugate. rewrite mmul_ident_l by (unfold m; lia). rewrite (mmul_ext m _ (herm Lower At) _ ident) by (intros; first [apply adj_ident | reflexivity]).
          rewrite mmul_ident_r by (unfold m; lia). unfold B. rewrite !LOW by lia. unfold band_upto. destruct (Z.ltb_spec c k); [lia|]. cbn [andb]. unfold At. f_equal; lia. }
    intros a c La Lc. destruct (Z.le_gt_cases c a) as [C|C]; [apply H; lia|]. rewrite <- HB by lia. rewrite <- H by lia. symmetry. apply conj_hermitian. exact HB'. }
  unfold inv. rewrite NF'. split; [exact RD'|]. split; [|split; [|exact UP']].
  - apply (unitary_ext n (mmul n (refl_prod n (band_vectors b (G st)) (r2b_taus b st) (Z.to_nat k)) (emb e Q))).
    + intros a c La Lc. symmetry. apply QE; assumption.
    + apply unitary_mul; [exact UN|]. apply emb_unitary; [lia|exact UQ].
  - intros a c La Lc. rewrite <- (EQ a c La Lc). fold B. fold B'.
    rewrite (conj_ext n _ _ B' B' a c QE) by (try assumption; intros ? ? ? ?; reflexivity).
    rewrite conj_mul. apply conj_ext; try assumption. intros ? ? ? ?; reflexivity.
Qed.
Lemma inv_run : forall j, (0 <= j)%Z -> (j <= r2b_ntiles n b)%Z -> (0 < r2b_nrefls n b)%Z -> inv j (mrun (flat_map (r2b_step kn rs n mb b avail minwork avail_t ord) (zrange 0 j)) st0).
Proof using KO Hn Hb Hmb Hdiv AT ORD RD0.
  intros j J0. pattern j. apply natlike_ind; [| |exact J0].
  - intros _ NP. rewrite zrange_nil by lia. cbn [flat_map]. unfold inv. cbv zeta. rewrite Z.mul_0_l. replace (Z.to_nat (Z.min 0 (r2b_nrefls n b))) with 0%nat by lia. cbn [refl_prod mrun fold_left].
    split; [exact RD0|]. split; [apply unitary_ident|]. split; [|reflexivity].
    intros a c La Lc. unfold conjugate. rewrite mmul_ident_l by assumption. rewrite (mmul_ext n _ (herm Lower (band_upto b (Z.min 0 (r2b_nrefls n b)) (G st0))) _ ident) by (intros; first [apply adj_ident | reflexivity]).
    rewrite mmul_ident_r by assumption. unfold herm, band_upto, in_tri. destruct (Z.ltb_spec c (Z.min 0 (r2b_nrefls n b))), (Z.ltb_spec a (Z.min 0 (r2b_nrefls n b))); try lia. reflexivity.
  - intros x X IH L NP. rewrite <- Z.add_1_r in *. rewrite zrange_snoc by lia. rewrite flat_map_app, mrun_app. cbn [flat_map]. rewrite app_nil_r. apply inv_step; [lia| |apply IH; lia].
    unfold r2b_ntiles in L. assert (x <= (r2b_nrefls n b - 1) / b)%Z by lia. pose proof (Z.mul_div_le (r2b_nrefls n b - 1) b Hb). nia.
Qed.
Theorem r2b_run : let st := mrun (reduction_to_band kn rs n mb b avail minwork avail_t ord) st0 in
  let Q := refl_prod n (band_vectors b (G st)) (r2b_taus b st) (Z.to_nat (r2b_nrefls n b)) in
  real_diag n (G st) /\ unitary n Q /\
  meq n n (herm Lower (G st0)) (conjugate n Q (herm Lower (lower_band b (G st)))) /\
  (forall a q, (0 <= a < n)%Z -> (0 <= q < n)%Z -> (a < q)%Z -> G st a q = G st0 a q).
Proof using KO Hn Hb Hmb Hdiv AT ORD RD0.
  intros st Q. assert (LB : forall s : tstore (mat K), meq n n (herm Lower (band_upto b (r2b_nrefls n b) (G s))) (herm Lower (lower_band b (G s)))).
  { intros s a c La Lc. unfold herm, in_tri, band_upto, lower_band. unfold r2b_nrefls.
    destruct (Z.leb_spec c a), (Z.ltb_spec c (Z.max 0 (n - b - 1))), (Z.ltb_spec (c + b) a), (Z.ltb_spec a (Z.max 0 (n - b - 1))), (Z.ltb_spec (a + b) c); try lia; cbn [andb]; reflexivity. }
  unfold st, reduction_to_band in *. destruct (Z.eqb_spec (r2b_nrefls n b) 0) as [E|E].
  - unfold Q. rewrite E. cbn [Z.to_nat refl_prod mrun fold_left]. split; [exact RD0|]. split; [apply unitary_ident|]. split; [|reflexivity].
    intros a c La Lc. unfold conjugate. rewrite mmul_ident_l by assumption. rewrite (mmul_ext n _ (herm Lower (lower_band b (G st0))) _ ident) by (intros; first [apply adj_ident | reflexivity]).
    rewrite mmul_ident_r by assumption. rewrite <- LB by assumption. rewrite E. unfold herm, band_upto, in_tri. destruct (Z.ltb_spec c 0), (Z.ltb_spec a 0); try lia. reflexivity.
  - assert (NP : (0 < r2b_nrefls n b)%Z) by (unfold r2b_nrefls in *; lia).
    assert (NT0 : (0 <= r2b_ntiles n b)%Z) by (unfold r2b_ntiles; pose proof (Z.div_pos (r2b_nrefls n b - 1) b); lia).
    destruct (inv_run (r2b_ntiles n b) NT0 ltac:(lia) NP) as (I1 & I2 & I3 & I4).
    assert (MN : (Z.min (r2b_ntiles n b * b) (r2b_nrefls n b) = r2b_nrefls n b)%Z).
    { unfold r2b_ntiles. pose proof (Z.mul_succ_div_gt (r2b_nrefls n b - 1) b Hb). lia. }
    rewrite MN in I2, I3. split; [exact I1|]. split; [exact I2|]. split; [|exact I4].
    intros a c La Lc. rewrite <- I3 by assumption. apply conj_ext; try assumption; [intros ? ? ? ?; reflexivity|apply LB].
Qed.
End induction.

(** ** The result depends neither on the kernels nor on the number of threads nor on their order *)
Section unique.
Context {K : starfield} (rs : roots K).
Local Open Scope sf_scope.
Variables n mb b : Z.
Hypothesis (Hn : (0 <= n)%Z) (Hb : (0 < b)%Z) (Hmb : (0 < mb)%Z) (Hdiv : (mb mod b = 0)%Z).
(** kernels, threads for the panel, minimum work, threads for the T factor, order of the threads *)
Record r2b_cfg := R2BCfg { c_kn : kernels K; c_avail : Z; c_minwork : Z; c_avail_t : Z; c_ord : Z -> Z -> list Z }.
Definition cfg_ok (n mb b : Z) (c : r2b_cfg) : Prop := kernels_ok (c_kn c) /\ (0 < c_avail_t c)%Z /\
  forall j i, (0 <= j)%Z -> (j * b < r2b_nrefls n b)%Z -> (0 <= i < n_refl n b j)%Z -> Permutation (c_ord c j i) (zrange 0 (panel_nworkers (ptl n mb b j) (c_avail c) (c_minwork c))).
Definition r2b_jobs (n mb b : Z) (c : r2b_cfg) : list (mjob (mat K)) := reduction_to_band (c_kn c) rs n mb b (c_avail c) (c_minwork c) (c_avail_t c) (c_ord c).
Notation G := (r2b_mat mb).
Definition same (st s : tstore (mat K)) : Prop := meq n n (G st) (G s) /\ forall k i, col_vec (st (rTau k)) i = col_vec (s (rTau k)) i.
Lemma same_step : forall c c' j st s, cfg_ok n mb b c -> cfg_ok n mb b c' -> (0 <= j)%Z -> (j * b < r2b_nrefls n b)%Z -> real_diag n (G st) -> same st s ->
  same (mrun (r2b_step (c_kn c) rs n mb b (c_avail c) (c_minwork c) (c_avail_t c) (c_ord c) j) st)
       (mrun (r2b_step (c_kn c') rs n mb b (c_avail c') (c_minwork c') (c_avail_t c') (c_ord c') j) s).
Proof using Hn Hb Hmb Hdiv.
  intros c c' j st s (KO & AT & ORD) (KO' & AT' & ORD') J0 J1 RD [SG ST].
  pose proof (n_refl_pos n b Hb j J1) as NP. pose proof (n_refl_b n b j) as NB. pose proof (n_refl_n n b Hb j J0 J1) as NN. pose proof (e_row_col b j) as ERC.
  assert (EC0 : (0 <= e_col b j)%Z) by (unfold e_col; nia).
  assert (RD' : real_diag n (G s)) by (intros a La; unfold real; rewrite <- SG by assumption; apply RD; assumption).
  destruct (r2b_step_ok (c_kn c) KO rs n mb b (c_avail c) (c_minwork c) (c_avail_t c) (c_ord c) Hb Hmb Hdiv j J0 J1 (fun i Li => ORD j i J0 J1 Li) AT st) as (_ & _ & S3 & S4 & S5 & S6 & S7).
  { intros a La. apply RD. lia. }
  destruct (r2b_step_ok (c_kn c') KO' rs n mb b (c_avail c') (c_minwork c') (c_avail_t c') (c_ord c') Hb Hmb Hdiv j J0 J1 (fun i Li => ORD' j i J0 J1 Li) AT' s) as (_ & _ & S3' & S4' & S5' & S6' & S7').
  { intros a La. apply RD'. lia. }
  set (st1 := mrun _ st) in *. set (s1 := mrun _ s) in *. set (m := (n - e_row b j)%Z) in *.
  cbv zeta in S7, S7'. destruct S7 as [R1 R2], S7' as [R1' R2'].
  destruct (m_run_ext rs (ptl n mb b j) b (Z.to_nat (n_refl n b j)) (fun a q => G st (e_row b j + a)%Z (e_col b j + q)%Z) (fun a q => G s (e_row b j + a)%Z (e_col b j + q)%Z) (col_vec (st (rTau j))) (col_vec (s (rTau j)))) as [X1 X2].
  { rewrite ptl_size by assumption. lia. } { lia. }
  { intros a q La Lq. rewrite ptl_size in La by assumption. apply SG; lia. } { apply ST. }
  assert (ETAU : forall i, col_vec (st1 (rTau j)) i = col_vec (s1 (rTau j)) i) by (intros i; rewrite R2, R2'; apply X2).
  assert (EP : forall a q, (0 <= a < m)%Z -> (0 <= q < b)%Z -> G st1 (e_row b j + a)%Z (e_col b j + q)%Z = G s1 (e_row b j + a)%Z (e_col b j + q)%Z).
  { intros a q La Lq. rewrite R1, R1' by assumption. apply X1; [rewrite ptl_size by assumption; exact La|exact Lq]. }
  split.
  - intros a q La Lq. destruct (Z.lt_ge_cases a (e_row b j)) as [A|A]; [rewrite S4, S4' by lia; apply SG; assumption|].
    destruct (Z.lt_ge_cases q (e_col b j)) as [C|C]; [rewrite S4, S4' by lia; apply SG; assumption|].
    destruct (Z.lt_ge_cases a q) as [AQ|AQ]; [rewrite S4, S4' by lia; apply SG; assumption|].
    destruct (Z.lt_ge_cases q (e_row b j)) as [D|D].
    + replace a with (e_row b j + (a - e_row b j))%Z by lia. replace q with (e_col b j + (q - e_col b j))%Z by lia. apply EP; unfold m; lia.
    + replace a with (e_row b j + (a - e_row b j))%Z by lia. replace q with (e_row b j + (q - e_row b j))%Z by lia. rewrite S3, S3' by (unfold m; lia).
      assert (EQ : meq m m (refl_prod m (unit_lower (fun a q => G st1 (e_row b j + a)%Z (e_col b j + q)%Z)) (col_vec (st1 (rTau j))) (Z.to_nat (n_refl n b j)))
                           (refl_prod m (unit_lower (fun a q => G s1 (e_row b j + a)%Z (e_col b j + q)%Z)) (col_vec (s1 (rTau j))) (Z.to_nat (n_refl n b j)))).
      { apply refl_prod_ext; [|intros; apply ETAU]. intros i x Li Lx. unfold unit_lower. rewrite EP by lia. reflexivity. }
      apply mmul_ext; intros r Lr; [unfold adj, opm; rewrite EQ by (unfold m in *; lia); reflexivity|]. apply mmul_ext; intros u Lu; [|apply EQ; unfold m in *; lia].
      unfold herm. rewrite !SG by (unfold m in *; lia). reflexivity.
  - intros k i. destruct (Z.eq_dec k j) as [->|N]; [apply ETAU|]. rewrite S6, S6' by exact N. apply ST.
Qed.
Lemma real_diag_step : forall c j st, cfg_ok n mb b c -> (0 <= j)%Z -> (j * b < r2b_nrefls n b)%Z -> real_diag n (G st) ->
  real_diag n (G (mrun (r2b_step (c_kn c) rs n mb b (c_avail c) (c_minwork c) (c_avail_t c) (c_ord c) j) st)).
Proof using Hn Hb Hmb Hdiv.
  intros c j st (KO & AT & ORD) J0 J1 RD.
  pose proof (n_refl_n n b Hb j J0 J1) as NN. pose proof (e_row_col b j) as ERC. pose proof (n_refl_pos n b Hb j J1) as NP.
  assert (EC0 : (0 <= e_col b j)%Z) by (unfold e_col; nia).
  destruct (r2b_step_ok (c_kn c) KO rs n mb b (c_avail c) (c_minwork c) (c_avail_t c) (c_ord c) Hb Hmb Hdiv j J0 J1 (fun i Li => ORD j i J0 J1 Li) AT st) as (_ & _ & S3 & S4 & _).
  { intros a La. apply RD. lia. }
  intros a La. unfold real. destruct (Z.lt_ge_cases a (e_row b j)) as [A|A]; [rewrite S4 by lia; apply RD; assumption|].
  replace a with (e_row b j + (a - e_row b j))%Z by lia. rewrite S3 by lia.
  set (m := (n - e_row b j)%Z). set (At := fun a c => G st (e_row b j + a)%Z (e_row b j + c)%Z). set (Q := refl_prod _ _ _ _).
  assert (E : forall i l, mmul m (adj Q) (mmul m (herm Lower At) Q) i l = conjugate m (adj Q) (herm Lower At) i l).
  { intros i l. unfold conjugate. apply mmul_ext; [reflexivity|]. intros r _. apply mmul_ext; [reflexivity|]. intros u _. symmetry. apply adj_adj. }
  rewrite !E. apply conj_hermitian. intros i l Li Ll. apply (herm_herm Lower m At); try assumption. intros x Lx. apply RD. unfold m in Lx. lia.
Qed.
Theorem r2b_unique : forall c c' st s, cfg_ok n mb b c -> cfg_ok n mb b c' -> real_diag n (G st) -> same st s -> same (mrun (r2b_jobs n mb b c) st) (mrun (r2b_jobs n mb b c') s).
Proof using Hn Hb Hmb Hdiv.
  intros c c' st s CO CO' RD SM. unfold r2b_jobs, reduction_to_band. destruct (Z.eqb_spec (r2b_nrefls n b) 0) as [E|E]; [exact SM|].
  assert (NP : (0 < r2b_nrefls n b)%Z) by (unfold r2b_nrefls in *; lia).
  assert (NT0 : (0 <= r2b_ntiles n b)%Z) by (unfold r2b_ntiles; pose proof (Z.div_pos (r2b_nrefls n b - 1) b); lia).
  assert (H : forall x, (0 <= x)%Z -> (x <= r2b_ntiles n b)%Z ->
    same (mrun (flat_map (r2b_step (c_kn c) rs n mb b (c_avail c) (c_minwork c) (c_avail_t c) (c_ord c)) (zrange 0 x)) st)
         (mrun (flat_map (r2b_step (c_kn c') rs n mb b (c_avail c') (c_minwork c') (c_avail_t c') (c_ord c')) (zrange 0 x)) s) /\
    real_diag n (G (mrun (flat_map (r2b_step (c_kn c) rs n mb b (c_avail c) (c_minwork c) (c_avail_t c) (c_ord c)) (zrange 0 x)) st))).
  { intros x X0. pattern x. apply natlike_ind; [| |exact X0].
    - intros _. rewrite zrange_nil by lia. split; assumption.
    - intros y Y IH L. rewrite <- Z.add_1_r in *. rewrite zrange_snoc by lia. rewrite !flat_map_app, !mrun_app. cbn [flat_map]. rewrite !app_nil_r.
      destruct (IH ltac:(lia)) as [I1 I2]. assert (YB : (y * b < r2b_nrefls n b)%Z).
      { unfold r2b_ntiles in L. assert (y <= (r2b_nrefls n b - 1) / b)%Z by lia. pose proof (Z.mul_div_le (r2b_nrefls n b - 1) b Hb). nia. }
      split; [apply same_step; assumption|apply real_diag_step; assumption]. }
  apply H; lia.
Qed.
End unique.

(** ** Every task reads and updates distinct tiles *)
Section jobs_ok.
Context {K : starfield} (kn : kernels K) (rs : roots K).
Variables n mb b : Z.
Variables avail minwork avail_t : Z.
Variable ord : Z -> Z -> list Z.
Hypothesis (Hb : 0 < b) (Hmb : 0 < mb) (Hdiv : mb mod b = 0).
Ltac tneqj j := let E := fresh in intros E; apply (f_equal t_mat) in E; cbv [rA rTau rV rW rX rWs rT] in E; cbn [t_mat] in E; pose proof (Z.mod_pos_bound j 2 eq_refl); lia.
Lemma step_jobs_ok : forall j, 0 <= j -> j * b < r2b_nrefls n b -> Forall mjob_ok (r2b_step kn rs n mb b avail minwork avail_t ord j).
Proof using Hb Hmb Hdiv.
  intros j J0 J1. assert (VN : forall i x, t_mat x = 4 + j mod 2 \/ t_mat x = 6 + j mod 2 \/ t_mat x = 8 + j mod 2 \/ t_mat x = 10 -> x <> vid mb b j i).
  { intros i x L. apply vid_not; intros E; subst x; cbv [rA rV] in L; cbn [t_mat] in L; pose proof (Z.mod_pos_bound j 2 eq_refl); lia. }
  assert (MJ : forall l : list (tjob (mat K)), Forall tjob_ok l -> Forall mjob_ok (map mj l)).
  { intros l F0. rewrite Forall_forall in *. intros x I0. apply in_map_iff in I0 as (y & <- & I0). apply mj_ok. apply F0. exact I0. }
  pose proof (Z.mod_pos_bound j 2 eq_refl) as M2.
  unfold r2b_step. repeat (apply Forall_app; split).
  - constructor; [|constructor]. split; [apply panel_outs_nodup|]. intros x _ [].
  - apply MJ. unfold jobs_setup_V. apply Forall_app. split.
    + constructor; [|constructor; [|constructor]]; intros I0; cbn in I0; [|exact I0]. destruct I0 as [E|[]]. revert E. tneqj j.
    + apply Forall_forall. intros x I0. apply in_for_up in I0 as (i & _ & I0). destruct full_band; [destruct I0|]. destruct I0 as [<-|[]]. intros [E|[]]. revert E. cbn. tneqj j.
  - constructor; [|constructor]. split; [apply gemv_outs_nodup|]. intros x I0 I1. cbn [job_gemv mj_in mj_out] in I0, I1.
    assert (TM : t_mat x = 10 \/ t_mat x = 8 + j mod 2) by (destruct I0 as [<-|I0]; [left; reflexivity|]; apply in_map_iff in I0 as (w & <- & _); right; reflexivity).
    apply in_app_or in I1 as [I1|[<-|[]]]; [|cbv [rTau] in TM; cbn [t_mat] in TM; lia]. apply in_map_iff in I1 as (i & E & _). symmetry in E. revert E. apply VN. lia.
  - constructor; [|constructor]. apply mj_ok. intros [E|[]]. revert E. cbn. tneqj j.
  - destruct (e_row b j <? n); [|constructor]. repeat (apply Forall_app; split); apply MJ; apply Forall_forall; intros x I0.
    + apply in_for_up in I0 as (i & _ & [<-|[]]). intros [E|[E|[]]]; cbn [tj_out] in E; revert E; [tneqj j|]. intros E. symmetry in E. revert E. apply VN. cbn; lia.
    + unfold jobs_X in I0. apply in_app_or in I0 as [I0|I0].
      * apply in_for_up in I0 as (i & _ & [<-|[]]). intros [].
      * apply in_for_up in I0 as (i & _ & I0). apply in_for_down in I0 as (k & _ & I0). destruct (i =? k); [destruct I0 as [<-|[]]|destruct I0 as [<-|[<-|[]]]];
        intros [E|[E|[]]]; cbn [tj_out] in E; revert E; tneqj j.
    + unfold jobs_W2 in I0. apply in_app_or in I0 as [[<-|[]]|I0]; [intros []|]. apply in_for_up in I0 as (i & _ & [<-|[]]). intros [E|[E|[]]]; cbn in E; revert E; tneqj j.
    + apply in_for_up in I0 as (i & _ & [<-|[]]). intros [E|[E|[]]]; cbn in E; revert E; [|tneqj j]. intros E. symmetry in E. revert E. apply VN. cbn; lia.
    + apply in_for_up in I0 as (i & Li & I0). apply in_for_up in I0 as (k & Lk & I0).
      assert (VO : forall a, i0 mb b j <= a -> vid mb b j a <> rA i k) by (intros a La; apply (vid_out mb b Hb Hmb j); lia).
      destruct (Z.eqb_spec i k) as [<-|N]; [destruct I0 as [<-|[]]|destruct I0 as [<-|[<-|[]]]]; intros [E|[E|[]]]; cbn [tj_out] in E; revert E; first [tneqj j | apply VO; lia].
Qed.
Lemma r2b_jobs_ok : Forall mjob_ok (reduction_to_band kn rs n mb b avail minwork avail_t ord).
Proof using Hb Hmb Hdiv.
  unfold reduction_to_band. destruct (Z.eqb_spec (r2b_nrefls n b) 0) as [E|E]; [constructor|].
  apply Forall_forall. intros x I0. apply in_flat_map in I0 as (j & Ij & I0). apply in_zrange in Ij. revert x I0. apply Forall_forall. apply step_jobs_ok; [lia|].
  unfold r2b_ntiles in Ij. assert (0 < r2b_nrefls n b) by (unfold r2b_nrefls in *; lia). assert (j <= (r2b_nrefls n b - 1) / b) by lia. pose proof (Z.mul_div_le (r2b_nrefls n b - 1) b Hb). nia.
Qed.
End jobs_ok.
