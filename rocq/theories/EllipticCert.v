(** The computation behind the accuracy of the elliptic integrals. *)
From Coq Require Import Reals Lra Lia Psatz List ZArith QArith Qreals Qround Machin.
From Coquelicot Require Import Coquelicot.
From Verif Require Import PolyBound EllipticSeries EllipticNum.
Import ListNotations.
Local Open Scope R_scope.

(** ** Sums *)
Lemma partial_fpartial a N x : partial a N x = fpartial a N x.
Proof. induction N as [|N IH]; [reflexivity|]. cbn [partial fpartial]. rewrite IH. reflexivity. Qed.
Lemma fpartial_ext a b N x : (forall n, a n = b n) -> fpartial a N x = fpartial b N x.
Proof. intros E. induction N as [|N IH]; [reflexivity|]. cbn [fpartial]. rewrite IH, E. reflexivity. Qed.
Lemma fpartial_lin a b u v N x : fpartial (fun n => u * a n + v * b n) N x = u * fpartial a N x + v * fpartial b N x.
Proof. induction N as [|N IH]; [cbn; ring|]. cbn [fpartial]. rewrite IH. ring. Qed.
Lemma fpartial_short a k N x : (forall n, (k <= n)%nat -> a n = 0) -> (k <= N)%nat -> fpartial a N x = fpartial a k x.
Proof. intros Z H. induction H as [|N H IH]; [reflexivity|]. cbn [fpartial]. rewrite IH, Z by lia. ring. Qed.
Lemma fpartial_abs a M N x : (forall n, Rabs (a n) <= M) -> 0 <= x <= 1 / 2 -> Rabs (fpartial a N x) <= 2 * M.
Proof.
  intros B Hx. assert (HM : 0 <= M) by (eapply Rle_trans; [apply Rabs_pos|apply (B 0%nat)]). revert a B. induction N as [|N IH]; intros a B; [cbn; rewrite Rabs_R0; lra|]. rewrite fpartial_cons. specialize (IH (fun n => a (S n)) (fun n => B (S n))).
  eapply Rle_trans; [apply Rabs_triang|]. rewrite Rabs_mult, (Rabs_pos_eq x) by lra. pose proof (B 0%nat). pose proof (Rabs_pos (fpartial (fun n => a (S n)) N x)). nra.
Qed.
Lemma ln_x_le x : 0 < x <= 1 -> 0 <= - ln x /\ x * - ln x <= 1.
Proof.
  intros H. assert (ln x <= 0) by (rewrite <- ln_1; apply ln_le; lra). split; [lra|]. rewrite <- ln_Rinv by lra. assert (I : 0 < / x) by (apply Rinv_0_lt_compat; lra). pose proof (exp_ineq1_le (ln (/ x))) as Q. rewrite exp_ln in Q by exact I.
  apply Rle_trans with (x * / x); [apply Rmult_le_compat_l; lra|]. rewrite Rinv_r by lra. lra.
Qed.
(** [x ln(1/x)] grows up to [x = 1/e] *)
Lemma x_ln_x x c : 0 < x <= c -> 1 <= - ln c -> x * - ln x <= c * - ln c.
Proof.
  intros H L. assert (E : - ln x = ln (c / x) + - ln c) by (rewrite ln_div by lra; ring). rewrite E. assert (P : 0 < c / x) by (apply Rdiv_lt_0_compat; lra). pose proof (exp_ineq1_le (ln (c / x))) as Q. rewrite exp_ln in Q by exact P.
  assert (x * ln (c / x) <= x * (c / x - 1)) by (apply Rmult_le_compat_l; lra). replace (x * (c / x - 1)) with (c - x) in H0 by (field; lra). nra.
Qed.
Lemma dyadic_between x n : x < 1 / 2 -> / 2 ^ S n <= x -> exists k, (k < n)%nat /\ / 2 ^ S (S k) <= x < / 2 ^ S k.
Proof.
  intros Hx. induction n as [|n IH]; intros Hn; [cbn in Hn; lra|]. destruct (Rle_lt_dec (/ 2 ^ S n) x) as [Q|Q].
  - destruct (IH Q) as (k & Hk & B). exists k. split; [lia|exact B].
  - exists n. split; [lia|]. split; assumption.
Qed.
Lemma odd_cell (y : R) (a b : Z) : IZR (2 * a) <= y < IZR (2 * b) -> exists i, (a <= i < b)%Z /\ Rabs (y - IZR (2 * i + 1)) <= 1.
Proof.
  intros H. rewrite !mult_IZR in H. exists (Int_part (y / 2)). destruct (base_Int_part (y / 2)) as [L U]. set (i := Int_part (y / 2)) in *. split.
  - split; [apply Z.lt_succ_r, lt_IZR; unfold Z.succ; rewrite plus_IZR; lra|apply lt_IZR; lra].
  - rewrite plus_IZR, mult_IZR. apply Rabs_le. lra.
Qed.

(** ** With the logarithm: [x (f(x) - ln x g(x))] for [x < 1/2] *)
Definition STEPS : nat := 60.
Section LogPart.
Variables cA cB p q : nat -> Q.
Definition f1 (l2 : Q) (n : nat) : Q := cA (S n) - (4 # 1) * l2 * p (S n) - q (S n).
Definition g1 (n : nat) : Q := cB (S n) - p (S n).
Definition fz (l2 : Q) : list Z := map (fun n => to_Z (f1 l2 n)) (seq 0 STEPS).
Definition gz : list Z := map (fun n => to_Z (g1 n)) (seq 0 STEPS).
Definition check1 (fz gz : list Z) (l2 lj : Q) (j e : Z) : bool :=
  let A := around j j e fz in let G := around j j e gz in let H := padd (pscale T_bits (fst A)) (pmul (logz l2 lj e) (fst G)) in
  ((pbound j H + T_bits * (snd A + 2 + 20 * (snd G + 2)) + 64 * pbound j (fst G)) * (j + 1) <=? 29 * 2 ^ 112 / 10 ^ 14 * 2 ^ e)%Z.
Definition check_cells (F G : list Z) (l2 : Q) : bool :=
  forallb (fun i => let lj := lnj (2 * i + 1) in forallb (fun e => check1 F G l2 lj (2 * i + 1) e) (map Z.of_nat (seq 6 17))) (map Z.of_nat (seq 8 8)).
Definition check_small (F G : list Z) : bool := (pbound (2 ^ 18) F + 2 + 18 * (pbound (2 ^ 18) G + 2) <=? 29 * 2 ^ 82 / 10 ^ 14)%Z.
Definition check_both (F G : list Z) (l2 : Q) : bool := check_cells F G l2 && check_small F G && (smallb F && smallb G).
Variable l2 : Q.
Hypothesis l2_lam : l2 = lam.
Hypothesis checked : check_both (fz l2) gz l2 = true.
Let fr (x : R) : R := fpartial (fun n => Q2R (f1 l2 n)) STEPS x.
Let gr (x : R) : R := fpartial (fun n => Q2R (g1 n)) STEPS x.
Lemma eps_IZR k : (0 <= k)%Z -> IZR (29 * 2 ^ k / 10 ^ 14) <= 29 * two k / 10 ^ 14.
Proof. intros H. pose proof (div_IZR (29 * 2 ^ k) (10 ^ 14) ltac:(lia)) as D. rewrite mult_IZR in D. fold (two k) in D. replace (IZR (10 ^ 14)) with (10 ^ 14) in D by (rewrite (pow_IZR 10 14); reflexivity). lra. Qed.
Lemma two_pow n : two (Z.of_nat n) = 2 ^ n. Proof. unfold two. rewrite (pow_IZR 2 n). reflexivity. Qed.
Lemma S_pow : IZR S_bits = 2 ^ 64. Proof. unfold S_bits. rewrite (pow_IZR 2 64). reflexivity. Qed.
Lemma T_pow : IZR T_bits = 2 ^ 48. Proof. unfold T_bits. rewrite (pow_IZR 2 48). reflexivity. Qed.
Lemma triangle_2 u y w A B C : Rabs (u - y) <= B -> Rabs (w - y) <= A -> A + B <= C -> Rabs (u - w) <= C.
Proof. intros H1 H2 H3. replace (u - w) with ((u - y) - (w - y)) by ring. eapply Rle_trans; [apply Rabs_triang|]. rewrite Rabs_Ropp. lra. Qed.
Lemma around_cell a j e x : (17 <= j <= 31)%Z -> (6 <= e)%Z -> 0 <= x <= 1 / 2 -> Rabs (x * two e / IZR j - 1) <= / IZR j -> small (map (fun n => to_Z (a n)) (seq 0 STEPS)) ->
  Rabs (fpartial (fun n => Q2R (a n)) STEPS x * IZR S_bits - peval (fst (around j j e (map (fun n => to_Z (a n)) (seq 0 STEPS)))) (x * two e / IZR j - 1)) <= IZR (snd (around j j e (map (fun n => to_Z (a n)) (seq 0 STEPS)))) + 2.
Proof.
  intros Hj He Hx Hv Sm. set (l := map (fun n => to_Z (a n)) (seq 0 STEPS)) in *. pose proof (two_pos e ltac:(lia)) as E. assert (J : 0 < IZR j) by (apply IZR_lt; lia).
  assert (E64 : 64 <= two e) by (unfold two; apply IZR_le; change 64%Z with (2 ^ 6)%Z; apply Z.pow_le_mono_r; lia). assert (J31 : IZR j <= 31) by (apply IZR_le; lia).
  assert (Rh : IZR j / two e <= 3 / 4). { apply (Rmult_le_reg_r (two e)); [exact E|]. unfold Rdiv at 1. rewrite Rmult_assoc, Rinv_l by lra. lra. }
  assert (Xe : IZR j / two e * (1 + (x * two e / IZR j - 1)) = x) by (field; lra).
  pose proof (around_ok j j e l (x * two e / IZR j - 1) ltac:(lia) ltac:(lia) ltac:(lia) Rh Sm Hv ltac:(rewrite Xe; lra)) as A. rewrite Xe in A. pose proof (rounded_ok a STEPS 0 x Hx) as B. cbn [Nat.add] in B. fold l in B.
  apply (triangle_2 _ (peval l x) _ (IZR (snd (around j j e l))) 2); [exact B|exact A|]. lra.
Qed.
Lemma cell_algebra (f g x L Fv Gv lz bh bg ef eg J E eps : R) : Rabs (f * 2 ^ 64 - Fv) <= ef + 2 -> Rabs (g * 2 ^ 64 - Gv) <= eg + 2 -> Rabs (L * 2 ^ 48 - lz) <= 64 -> Rabs (2 ^ 48 * Fv + lz * Gv) <= bh -> Rabs Gv <= bg ->
  0 <= L <= 20 -> 0 < x -> 0 < E -> 0 < J -> x * E <= J + 1 -> (bh + 2 ^ 48 * (ef + 2 + 20 * (eg + 2)) + 64 * bg) * (J + 1) <= eps * E -> eps <= 29 * (2 ^ 64 * 2 ^ 48) / 10 ^ 14 -> x * Rabs (f + L * g) <= 29 / 10 ^ 14.
Proof.
  intros AF AG AL BH BG HL Hx HE HJ Hc C Eps.
  assert (X : Rabs ((f + L * g) * (2 ^ 64 * 2 ^ 48)) <= bh + 2 ^ 48 * (ef + 2 + 20 * (eg + 2)) + 64 * bg).
  { replace ((f + L * g) * (2 ^ 64 * 2 ^ 48)) with ((2 ^ 48 * Fv + lz * Gv) + (2 ^ 48 * (f * 2 ^ 64 - Fv) + L * 2 ^ 48 * (g * 2 ^ 64 - Gv) + (L * 2 ^ 48 - lz) * Gv)) by ring.
    assert (Y1 : Rabs (2 ^ 48 * (f * 2 ^ 64 - Fv)) <= 2 ^ 48 * (ef + 2)) by (rewrite Rabs_mult, (Rabs_pos_eq (2 ^ 48)) by lra; apply Rmult_le_compat_l; lra).
    assert (Y2 : Rabs (L * 2 ^ 48 * (g * 2 ^ 64 - Gv)) <= 20 * 2 ^ 48 * (eg + 2)). { rewrite Rabs_mult, (Rabs_pos_eq (L * 2 ^ 48)) by lra. apply Rmult_le_compat; try apply Rabs_pos; lra. }
    assert (Y3 : Rabs ((L * 2 ^ 48 - lz) * Gv) <= 64 * bg). { rewrite Rabs_mult. apply Rmult_le_compat; try apply Rabs_pos; assumption. }
    eapply Rle_trans; [eapply Rle_trans; [apply Rabs_triang|apply Rplus_le_compat_l; eapply Rle_trans; [apply Rabs_triang|apply Rplus_le_compat_r, Rabs_triang]]|]. lra. }
  rewrite Rabs_mult, (Rabs_pos_eq (2 ^ 64 * 2 ^ 48)) in X by lra.
  set (r := Rabs (f + L * g)) in *. assert (Pr : 0 <= r) by apply Rabs_pos. clearbody r. clear AF AG AL BH BG. assert (HK : 0 < 2 ^ 64 * 2 ^ 48) by lra. set (K := 2 ^ 64 * 2 ^ 48) in *. clearbody K. set (M := bh + 2 ^ 48 * (ef + 2 + 20 * (eg + 2)) + 64 * bg) in *. clearbody M. set (T := 10 ^ 14) in *. assert (HT : 0 < T) by (unfold T; apply pow_lt; lra). clearbody T.
  apply (Rmult_le_reg_r (K * E)); [apply Rmult_lt_0_compat; assumption|]. replace (x * r * (K * E)) with (r * K * (x * E)) by ring.
  apply Rle_trans with (M * (J + 1)); [apply Rmult_le_compat; try lra; apply Rmult_le_pos; lra|].
  eapply Rle_trans; [exact C|]. replace (29 / T * (K * E)) with (29 * K / T * E) by (unfold Rdiv; ring). apply Rmult_le_compat_r; lra.
Qed.
Lemma log_20 x E : 0 < x <= 1 / 2 -> 0 < E <= 2 ^ 22 -> 4 <= x * E -> 0 <= - ln x <= 20.
Proof.
  intros Hx HE Hc. split; [apply (ln_x_le x); lra|]. rewrite <- ln_Rinv by lra. apply Rle_trans with (ln (2 ^ 20)).
  - apply ln_le; [apply Rinv_0_lt_compat; lra|]. replace (2 ^ 20) with (/ / 2 ^ 20) by (apply Rinv_inv). apply Rinv_le_contravar; [apply Rinv_0_lt_compat; lra|]. apply (Rmult_le_reg_r E); [lra|]. apply Rle_trans with (/ 2 ^ 20 * 2 ^ 22); [apply Rmult_le_compat_l; lra|]. lra.
  - rewrite ln_pow by lra. cbn [INR]. assert (ln 2 <= 1) by (rewrite <- (ln_exp 1); apply ln_le; [lra|]; pose proof (exp_ineq1_le 1); lra). lra.
Qed.
Lemma check1_in F G k2 j e : check_cells F G k2 = true -> In j (map (fun i => 2 * i + 1)%Z (map Z.of_nat (seq 8 8))) -> In e (map Z.of_nat (seq 6 17)) -> check1 F G k2 (lnj j) j e = true.
Proof.
  intros H Hj He. unfold check_cells in H. rewrite forallb_forall in H. apply in_map_iff in Hj. destruct Hj as (i & <- & Hi). specialize (H i Hi). cbv zeta in H. rewrite forallb_forall in H. exact (H e He).
Qed.
Lemma check_parts F G k2 : check_both F G k2 = true -> check_cells F G k2 = true /\ check_small F G = true /\ small F /\ small G.
Proof. intros H. apply andb_prop in H. destruct H as [H S]. apply andb_prop in H, S. destruct H, S. repeat split; try assumption; apply smallb_ok; assumption. Qed.
Lemma check_small_real F G : check_small F G = true -> IZR (pbound (2 ^ 18) F) + 2 + 18 * (IZR (pbound (2 ^ 18) G) + 2) <= IZR (29 * 2 ^ 82 / 10 ^ 14).
Proof. intros C. apply Z.leb_le in C. apply IZR_le in C. rewrite !plus_IZR, mult_IZR, plus_IZR in C. exact C. Qed.
Lemma check1_real (F G : list Z) (k2 lj : Q) j e : check1 F G k2 lj j e = true ->
  (IZR (pbound j (padd (pscale T_bits (fst (around j j e F))) (pmul (logz k2 lj e) (fst (around j j e G))))) + 2 ^ 48 * (IZR (snd (around j j e F)) + 2 + 20 * (IZR (snd (around j j e G)) + 2)) + 64 * IZR (pbound j (fst (around j j e G)))) * (IZR j + 1) <= IZR (29 * 2 ^ 112 / 10 ^ 14) * two e.
Proof.
  intros C. unfold check1 in C. cbv zeta in C. apply Z.leb_le in C. apply IZR_le in C. set (k := (29 * 2 ^ 112 / 10 ^ 14)%Z) in *. clearbody k. rewrite (mult_IZR k) in C. set (bh := pbound j (padd _ _)) in *. set (bg := pbound j _) in *. set (sa := snd (around j j e F)) in *. set (sg := snd (around j j e G)) in *. clearbody bh bg sa sg. rewrite mult_IZR, !plus_IZR, !mult_IZR, !plus_IZR, mult_IZR, plus_IZR, T_pow in C. fold (two e) in C. exact C.
Qed.
Lemma cell_core (F G : list Z) (f g : R) j e x : check1 F G l2 (lnj j) j e = true -> (17 <= j <= 31)%Z -> Z.odd j = true -> (6 <= e <= 22)%Z -> 0 < x <= 1 / 2 -> Rabs (x * two e - IZR j) <= 1 ->
  Rabs (f * 2 ^ 64 - peval (fst (around j j e F)) (x * two e / IZR j - 1)) <= IZR (snd (around j j e F)) + 2 -> Rabs (g * 2 ^ 64 - peval (fst (around j j e G)) (x * two e / IZR j - 1)) <= IZR (snd (around j j e G)) + 2 ->
  x * Rabs (f - ln x * g) <= 29 / 10 ^ 14.
Proof.
  intros C Rj Oj Re Hx Hc AF AG. apply check1_real in C. pose proof (eps_IZR 112 ltac:(lia)) as Eps.
  assert (J : 17 <= IZR j) by (apply IZR_le; lia). pose proof (two_pos e ltac:(lia)) as E.
  set (v := x * two e / IZR j - 1) in *. assert (Hv : Rabs v <= / IZR j).
  { unfold v. replace (x * two e / IZR j - 1) with ((x * two e - IZR j) * / IZR j) by (field; lra). assert (I : 0 < / IZR j) by (apply Rinv_0_lt_compat; lra). rewrite Rabs_mult, (Rabs_pos_eq (/ _)) by lra. apply Rle_trans with (1 * / IZR j); [apply Rmult_le_compat_r; lra|lra]. }
  pose proof (logz_ok j e v Rj Oj ltac:(lia) Hv) as AL. rewrite <- l2_lam in AL. replace (IZR j / two e * (1 + v)) with x in AL by (unfold v; field; lra). rewrite T_pow in AL.
  assert (T22 : two e <= 2 ^ 22). { rewrite <- (two_pow 22). unfold two. apply IZR_le. apply Z.pow_le_mono_r; lia. }
  replace (f - ln x * g) with (f + - ln x * g) by ring. apply Rabs_le_between in Hc.
  pose proof (pbound_ok j (padd (pscale T_bits (fst (around j j e F))) (pmul (logz l2 (lnj j) e) (fst (around j j e G)))) v ltac:(lia) Hv) as BH. rewrite peval_padd, peval_pscale, peval_pmul, T_pow in BH. pose proof (pbound_ok j (fst (around j j e G)) v ltac:(lia) Hv) as BG.
  replace (two 112) with (2 ^ 64 * 2 ^ 48) in Eps by (change 112%Z with (Z.of_nat 112); rewrite two_pow; ring).
  exact (cell_algebra _ _ x _ _ _ _ _ _ _ _ (IZR j) (two e) _ AF AG AL BH BG (log_20 x (two e) Hx (conj E T22) ltac:(lra)) ltac:(lra) E ltac:(lra) ltac:(lra) C Eps).
Qed.
Lemma cell_bound j e x : In j (map (fun i => 2 * i + 1)%Z (map Z.of_nat (seq 8 8))) -> In e (map Z.of_nat (seq 6 17)) -> 0 < x <= 1 / 2 -> Rabs (x * two e - IZR j) <= 1 ->
  x * Rabs (fr x - ln x * gr x) <= 29 / 10 ^ 14.
Proof.
  intros Hj He Hx Hc. pose proof (check1_in _ _ _ j e (proj1 (check_parts _ _ _ checked)) Hj He) as C.
  assert (Rj : (17 <= j <= 31)%Z). { apply in_map_iff in Hj. destruct Hj as (i & <- & Hi). apply in_map_iff in Hi. destruct Hi as (n & <- & Hn). apply in_seq in Hn. lia. }
  assert (Re : (6 <= e <= 22)%Z). { apply in_map_iff in He. destruct He as (n & <- & Hn). apply in_seq in Hn. lia. }
  assert (J : 17 <= IZR j) by (apply IZR_le; lia).
  assert (Oj : Z.odd j = true). { apply in_map_iff in Hj. destruct Hj as (i & <- & Hi). apply Z.odd_spec. exists i. reflexivity. }
  assert (Hv : Rabs (x * two e / IZR j - 1) <= / IZR j).
  { replace (x * two e / IZR j - 1) with ((x * two e - IZR j) * / IZR j) by (field; lra). assert (I : 0 < / IZR j) by (apply Rinv_0_lt_compat; lra). rewrite Rabs_mult, (Rabs_pos_eq (/ _)) by lra. apply Rle_trans with (1 * / IZR j); [apply Rmult_le_compat_r; lra|lra]. }
  destruct (check_parts _ _ _ checked) as (_ & _ & SF & SG).
  pose proof (around_cell (f1 l2) j e x Rj ltac:(lia) ltac:(lra) Hv SF) as AF. pose proof (around_cell g1 j e x Rj ltac:(lia) ltac:(lra) Hv SG) as AG. rewrite S_pow in AF, AG.
  exact (cell_core (fz l2) gz (fr x) (gr x) j e x C Rj Oj Re Hx Hc AF AG).
Qed.
Theorem log_part x : 0 < x < 1 / 2 -> x * Rabs (fr x - ln x * gr x) <= 29 / 10 ^ 14.
Proof.
  intros Hx. destruct (Rle_lt_dec (/ 2 ^ 18) x) as [Q|Q].
  - destruct (dyadic_between x 17 ltac:(lra) Q) as (k & Hk & B). set (e := Z.of_nat (k + 6)). assert (E : two e = 2 ^ S k * 32) by (unfold e; rewrite two_pow, Nat.add_comm; cbn [Nat.add pow]; ring). assert (P : 0 < 2 ^ S k) by (apply pow_lt; lra).
    assert (Y : 16 <= x * two e < 32). { rewrite E. destruct B as [B1 B2]. split.
      - apply Rle_trans with (/ 2 ^ S (S k) * (2 ^ S k * 32)); [|apply Rmult_le_compat_r; [lra|exact B1]]. right. change (2 ^ S (S k)) with (2 * 2 ^ S k). field. lra.
      - apply Rlt_le_trans with (/ 2 ^ S k * (2 ^ S k * 32)); [apply Rmult_lt_compat_r; [lra|exact B2]|]. right. field. lra. }
    destruct (odd_cell (x * two e) 8 16 Y) as (i & Hi & Hc). apply (cell_bound (2 * i + 1) e); [|unfold e; apply in_map, in_seq; lia|lra|exact Hc].
    apply (in_map (fun i => 2 * i + 1)%Z). rewrite <- (Z2Nat.id i) by lia. apply in_map, in_seq. lia.
  - pose proof (check_small_real _ _ (proj1 (proj2 (check_parts _ _ _ checked)))) as C. pose proof (eps_IZR 82 ltac:(lia)) as Eps. replace (two 82) with (2 ^ 64 * 2 ^ 18) in Eps by (change 82%Z with (Z.of_nat 82); rewrite two_pow; ring).
    assert (Hx2 : Rabs x <= / IZR (2 ^ 18)) by (fold (two 18); change 18%Z with (Z.of_nat 18); rewrite two_pow, Rabs_pos_eq; lra).
    pose proof (pbound_ok (2 ^ 18) (fz l2) x ltac:(lia) Hx2) as BF. pose proof (pbound_ok (2 ^ 18) gz x ltac:(lia) Hx2) as BG.
    pose proof (rounded_ok (f1 l2) STEPS 0 x ltac:(lra)) as RF. pose proof (rounded_ok g1 STEPS 0 x ltac:(lra)) as RG. cbn [Nat.add] in RF, RG. fold (fr x) in RF. fold (gr x) in RG. change (map (fun n => to_Z (f1 l2 n)) (seq 0 STEPS)) with (fz l2) in RF. change (map (fun n => to_Z (g1 n)) (seq 0 STEPS)) with gz in RG. rewrite S_pow in RF, RG.
    set (bf := IZR (pbound _ (fz l2))) in *. set (bg := IZR (pbound _ gz)) in *. set (a := peval (fz l2) x) in *. set (b := peval gz x) in *. clearbody bf bg a b.
    assert (XF : Rabs (fr x) * 2 ^ 64 <= bf + 2). { rewrite <- (Rabs_pos_eq (2 ^ 64)) by lra. rewrite <- Rabs_mult. replace (fr x * 2 ^ 64) with ((fr x * 2 ^ 64 - a) + a) by ring. eapply Rle_trans; [apply Rabs_triang|]. lra. }
    assert (XG : Rabs (gr x) * 2 ^ 64 <= bg + 2). { rewrite <- (Rabs_pos_eq (2 ^ 64)) by lra. rewrite <- Rabs_mult. replace (gr x * 2 ^ 64) with ((gr x * 2 ^ 64 - b) + b) by ring. eapply Rle_trans; [apply Rabs_triang|]. lra. }
    assert (L2 : 1 / 18 <= ln 2 <= 1). { pose proof lam_ok as A. split; [|rewrite <- (ln_exp 1); apply ln_le; [lra|]; pose proof (exp_ineq1_le 1); lra]. replace 2 with (/ (1 / 2)) by field. rewrite ln_Rinv by lra. pose proof (exp_ineq1_le (ln (1 / 2))) as W. rewrite exp_ln in W by lra. lra. }
    assert (LC : - ln (/ 2 ^ 18) = 18 * ln 2) by (rewrite ln_Rinv by lra; rewrite <- (two_pow 18), ln_two by lia; cbn; ring).
    pose proof (x_ln_x x (/ 2 ^ 18) ltac:(lra) ltac:(rewrite LC; lra)) as XL. rewrite LC in XL. destruct (ln_x_le x ltac:(lra)) as [L0 _].
    pose proof (Rabs_pos (fr x)) as PF. pose proof (Rabs_pos (gr x)) as PG.
    assert (Tr : Rabs (fr x - ln x * gr x) <= Rabs (fr x) + - ln x * Rabs (gr x)). { replace (fr x - ln x * gr x) with (fr x + - ln x * gr x) by ring. eapply Rle_trans; [apply Rabs_triang|]. rewrite Rabs_mult, (Rabs_pos_eq (- ln x)) by lra. lra. }
    apply Rle_trans with (x * Rabs (fr x) + x * - ln x * Rabs (gr x)); [replace (x * Rabs (fr x) + x * - ln x * Rabs (gr x)) with (x * (Rabs (fr x) + - ln x * Rabs (gr x))) by ring; apply Rmult_le_compat_l; lra|].
    assert (Z1 : x * Rabs (fr x) <= / 2 ^ 18 * Rabs (fr x)) by (apply Rmult_le_compat_r; lra). assert (Z2 : x * - ln x * Rabs (gr x) <= / 2 ^ 18 * 18 * Rabs (gr x)) by (apply Rmult_le_compat_r; lra). lra.
Qed.
End LogPart.

(** ** Lists of rational coefficients *)
Fixpoint qeval (l : list Q) (x : R) : R := match l with [] => 0 | a :: l => Q2R a + x * qeval l x end.
Lemma qeval_rounded l x : Rabs x <= 1 -> Rabs (qeval l x * IZR S_bits - peval (map to_Z l) x) <= INR (length l).
Proof.
  intros Hx. induction l as [|q l IH]; [cbn; rewrite Rmult_0_l, Rminus_0_r, Rabs_R0; lra|]. cbn [qeval map peval length]. pose proof (to_Z_ok q) as Z. rewrite S_INR. set (s := qeval l x) in *. set (y := peval _ x) in *. set (z := IZR (to_Z q)) in *. set (B := IZR S_bits) in *. clearbody s y z B.
  replace ((Q2R q + x * s) * B - (z + x * y)) with ((Q2R q * B - z) + x * (s * B - y)) by ring. eapply Rle_trans; [apply Rabs_triang|]. rewrite Rabs_mult.
  assert (Rabs x * Rabs (s * B - y) <= 1 * INR (length l)) by (apply Rmult_le_compat; try apply Rabs_pos; assumption). lra.
Qed.
Lemma qeval_nth l x : forall N, (length l <= N)%nat -> fpartial (fun n => Q2R (nth n l 0%Q)) N x = qeval l x.
Proof.
  assert (Z : Q2R 0 = 0) by (unfold Q2R; cbn; ring). induction l as [|q l IH]; intros N H.
  - rewrite (fpartial_short _ 0) by (try lia; intros [|n] _; exact Z). reflexivity.
  - destruct N as [|N]; [cbn in H; lia|]. rewrite fpartial_cons. cbn [nth qeval]. rewrite (IH N) by (cbn in H; lia). reflexivity.
Qed.
Lemma qeval_abs l x M : (forall q, In q l -> Rabs (Q2R q) <= M) -> Rabs x <= 1 -> Rabs (qeval l x) <= M * INR (length l).
Proof.
  intros H Hx. induction l as [|q l IH]; [cbn; rewrite Rabs_R0; lra|]. cbn [qeval length]. rewrite S_INR. specialize (IH (fun q Q => H q (or_intror Q))). pose proof (H q (or_introl eq_refl)). eapply Rle_trans; [apply Rabs_triang|]. rewrite Rabs_mult.
  assert (Rabs x * Rabs (qeval l x) <= 1 * (M * INR (length l))) by (apply Rmult_le_compat; try apply Rabs_pos; assumption). lra.
Qed.

(** ** The number pi *)
Fixpoint atanQ (q : Q) (n : nat) : Q := let t := (qpow q (2 * n + 1) * Qmake (if Nat.even n then 1 else -1) (Pos.of_succ_nat (2 * n)))%Q in match n with O => t | S k => Qred (atanQ q k + t)%Q end.
Definition piQ4 (n : nat) : Q := Qred ((2 # 1) * atanQ (1 # 3) n + atanQ (1 # 7) n).
Lemma atanQ_ok q n : Q2R (atanQ q n) = sum_f_R0 (tg_alt (Ratan_seq (Q2R q))) n.
Proof.
  assert (T : forall n, Q2R (qpow q (2 * n + 1) * Qmake (if Nat.even n then 1 else -1) (Pos.of_succ_nat (2 * n))) = tg_alt (Ratan_seq (Q2R q)) n).
  { clear. intros n. rewrite Q2R_mult, Q2R_pow. unfold tg_alt, Ratan_seq. unfold Q2R at 2. cbn [Qnum Qden]. rewrite succ_IZR, plus_INR. change (INR 1) with 1.
    assert (E : IZR (if Nat.even n then 1 else -1) = (-1) ^ n).
    { destruct (Nat.even n) eqn:E; [apply Nat.even_spec in E; destruct E as [m ->]; rewrite pow_1_even; reflexivity|].
      assert (O : Nat.odd n = true) by (rewrite <- Nat.negb_even, E; reflexivity). apply Nat.odd_spec in O. destruct O as [m ->]. rewrite Nat.add_1_r, pow_1_odd. reflexivity. }
    rewrite E. unfold Rdiv. ring. }
  induction n as [|n IH]; [apply (T 0%nat)|]. cbn [atanQ sum_f_R0]. rewrite Q2R_red, Q2R_plus, IH, (T (S n)). reflexivity.
Qed.
Lemma piQ4_ok n : Q2R (piQ4 n) = sum_f_R0 (tg_alt PI_2_3_7_tg) n.
Proof.
  unfold piQ4. rewrite Q2R_red, Q2R_plus, Q2R_mult, !atanQ_ok. replace (Q2R (2 # 1)) with 2 by (unfold Q2R; cbn; field). replace (Q2R (1 # 3)) with (/ 3) by (unfold Q2R; cbn; field). replace (Q2R (1 # 7)) with (/ 7) by (unfold Q2R; cbn; field).
  induction n as [|n IH]; cbn [sum_f_R0]; [unfold tg_alt, PI_2_3_7_tg; ring|]. rewrite <- IH. unfold tg_alt, PI_2_3_7_tg. ring.
Qed.
(** half of pi *)
Definition half_pi : Q := Eval vm_compute in Qmake (Qfloor ((2 # 1) * piQ4 41 * inject_Z (2 ^ 70))) (2 ^ 70).
Lemma half_pi_ok : Rabs (PI / 2 - Q2R half_pi) <= / 2 ^ 60.
Proof.
  destruct (PI_2_3_7_ineq 20) as [L U]. change (S (2 * 20)) with 41%nat in L. change (2 * 20)%nat with 40%nat in U. rewrite <- piQ4_ok in L, U.
  assert (A : Qle (half_pi - (1 # 2 ^ 60)) ((2 # 1) * piQ4 41)) by (vm_compute; intros H; discriminate H). assert (B : Qle ((2 # 1) * piQ4 40) (half_pi + (1 # 2 ^ 60))) by (vm_compute; intros H; discriminate H).
  apply Qle_Rle in A. apply Qle_Rle in B. rewrite Q2R_minus, Q2R_mult in A. rewrite Q2R_plus, Q2R_mult in B. replace (Q2R (2 # 1)) with 2 in A, B by (unfold Q2R; cbn; field).
  assert (E : Q2R (1 # 2 ^ 60) = / 2 ^ 60) by (unfold Q2R; cbn [Qnum Qden]; rewrite Rmult_1_l; f_equal; rewrite (pow_IZR 2 60); reflexivity). rewrite E in A, B.
  set (h := Q2R half_pi) in *. set (a := Q2R (piQ4 41)) in *. set (b := Q2R (piQ4 40)) in *. clearbody h a b. apply Rabs_le. lra.
Qed.
