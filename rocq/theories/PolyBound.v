(** Bounds of polynomials with integer coefficients, by computation. *)
From Coq Require Import Reals Lra Lia Psatz List ZArith QArith Qreals Qround.
From Coquelicot Require Import Coquelicot.
Import ListNotations.
Local Open Scope R_scope.

(** [peval [a0; a1; ...] x = a0 + a1 x + ...] *)
Fixpoint peval (l : list Z) (x : R) : R := match l with [] => 0 | a :: l => IZR a + x * peval l x end.
Fixpoint padd (a b : list Z) : list Z := match a, b with [], _ => b | _, [] => a | x :: a, y :: b => (x + y)%Z :: padd a b end.
Definition pscale (k : Z) (a : list Z) : list Z := map (Z.mul k) a.
Fixpoint pmul (a b : list Z) : list Z := match a with [] => [] | x :: a => padd (pscale x b) (0%Z :: pmul a b) end.
(** [p (1 + u)] *)
Fixpoint pshift (l : list Z) : list Z := match l with [] => [] | a :: l => let r := pshift l in padd [a] (padd r (0%Z :: r)) end.
(** [p (- x)] *)
Fixpoint pneg (l : list Z) : list Z := match l with [] => [] | a :: l => a :: map Z.opp (pneg l) end.
(** the coefficients of [p (num/2^e w)] as a polynomial in [w], rounded; [c] is the power of [num/2^e] reached, scaled by
    [2^64], and the list ends when it vanishes *)
Fixpoint pstretch (num e c : Z) (l : list Z) : list Z :=
  match l with
  | [] => []
  | a :: l => if (c =? 0)%Z then [] else Z.shiftr (a * c) 64 :: pstretch num e (Z.shiftr (c * num) e) l
  end.
(** the error of these coefficients, for [0 <= w <= 1 + 1/j] *)
Fixpoint perr (j : Z) (l : list Z) : Z := match l with [] => 20 | _ :: l => let r := perr j l in (20 + (r + (r / j + 1)))%Z end.
(** a bound for arguments of absolute value at most [1/j] *)
Fixpoint pbound (j : Z) (l : list Z) : Z := match l with [] => 0 | a :: l => (Z.abs a + (pbound j l / j + 1))%Z end.

Lemma peval_padd a b x : peval (padd a b) x = peval a x + peval b x.
Proof. revert b. induction a as [|y a IH]; intros [|z b]; cbn [padd peval]; try ring. rewrite IH, plus_IZR. ring. Qed.
Lemma peval_pscale k a x : peval (pscale k a) x = IZR k * peval a x.
Proof. unfold pscale. induction a as [|y a IH]; cbn [map peval]; [ring|]. rewrite IH, mult_IZR. ring. Qed.
Lemma peval_pmul a b x : peval (pmul a b) x = peval a x * peval b x.
Proof. induction a as [|y a IH]; cbn [pmul peval]; [ring|]. rewrite peval_padd, peval_pscale. cbn [peval]. rewrite IH. ring. Qed.
Lemma peval_pshift l u : peval (pshift l) u = peval l (1 + u).
Proof. induction l as [|a l IH]; cbn [pshift peval]; [reflexivity|]. cbv zeta. rewrite peval_padd, peval_padd. cbn [peval]. rewrite IH. ring. Qed.
Lemma peval_opp l x : peval (map Z.opp l) x = - peval l x.
Proof. induction l as [|a l IH]; cbn [map peval]; [ring|]. rewrite IH, opp_IZR. ring. Qed.
Lemma peval_pneg l x : peval (pneg l) x = peval l (- x).
Proof. induction l as [|a l IH]; cbn [pneg peval]; [reflexivity|]. rewrite peval_opp, IH. ring. Qed.
Lemma div_IZR a b : (0 < b)%Z -> IZR a / IZR b - 1 <= IZR (a / b) <= IZR a / IZR b.
Proof.
  intros Hb. pose proof (Z.div_mod a b ltac:(lia)) as E. pose proof (Z.mod_pos_bound a b Hb) as M. apply (f_equal IZR) in E. rewrite plus_IZR, mult_IZR in E.
  pose proof (IZR_lt _ _ Hb) as B. pose proof (IZR_le _ _ (proj1 M)) as M1. pose proof (IZR_lt _ _ (proj2 M)) as M2. rewrite E. unfold Rdiv. rewrite Rmult_plus_distr_r.
  replace (IZR b * IZR (a / b) * / IZR b) with (IZR (a / b)) by (field; lra). assert (I : 0 < / IZR b) by (apply Rinv_0_lt_compat; lra). assert (IZR (a mod b) * / IZR b <= 1). { apply (Rmult_le_reg_r (IZR b)); [lra|]. rewrite Rmult_assoc, Rinv_l by lra. lra. }
  assert (0 <= IZR (a mod b) * / IZR b) by (apply Rmult_le_pos; lra). lra.
Qed.
Lemma pbound_ok j l x : (0 < j)%Z -> Rabs x <= / IZR j -> Rabs (peval l x) <= IZR (pbound j l).
Proof.
  intros Hj Hx. pose proof (IZR_lt _ _ Hj) as J. induction l as [|a l IH]; cbn [peval pbound]; [rewrite Rabs_R0; lra|]. eapply Rle_trans; [apply Rabs_triang|]. rewrite !plus_IZR, abs_IZR. apply Rplus_le_compat_l.
  rewrite Rabs_mult. pose proof (div_IZR (pbound j l) j Hj) as D. apply Rle_trans with (/ IZR j * IZR (pbound j l)); [apply Rmult_le_compat; try apply Rabs_pos; assumption|]. unfold Rdiv in D. lra.
Qed.
Lemma pbound_pos j l : (0 < j)%Z -> (0 <= pbound j l)%Z.
Proof. intros Hj. induction l as [|a l IH]; cbn [pbound]; [lia|]. pose proof (Z.div_pos _ _ IH Hj). lia. Qed.
Definition two (e : Z) : R := IZR (2 ^ e).
Lemma two_pos e : (0 <= e)%Z -> 0 < two e. Proof. intros H. apply IZR_lt. apply Z.pow_pos_nonneg; lia. Qed.
Lemma two_plus d e : (0 <= d)%Z -> (0 <= e)%Z -> two (d + e) = two d * two e. Proof. intros A B. unfold two. rewrite <- mult_IZR, Z.pow_add_r by assumption. reflexivity. Qed.
Definition small (l : list Z) : Prop := forall a, In a l -> Rabs (IZR a) <= two 64.
Lemma small_peval l y : small l -> Rabs y <= 3 / 4 -> Rabs (peval l y) <= 4 * two 64.
Proof.
  intros H Hy. pose proof (two_pos 64 ltac:(lia)) as T. induction l as [|a l IH]; cbn [peval]; [rewrite Rabs_R0; lra|]. specialize (IH (fun a Q => H a (or_intror Q))). pose proof (H a (or_introl eq_refl)) as A.
  eapply Rle_trans; [apply Rabs_triang|]. rewrite Rabs_mult. assert (Rabs y * Rabs (peval l y) <= 3 / 4 * (4 * two 64)) by (apply Rmult_le_compat; try apply Rabs_pos; assumption). lra.
Qed.
Lemma perr_pos j l : (0 < j)%Z -> (20 <= perr j l)%Z.
Proof. intros H. induction l as [|a l IH]; cbn [perr]; [lia|]. cbv zeta. pose proof (Z.div_pos (perr j l) j ltac:(lia) H). lia. Qed.
Lemma perr_step j (a : Z) l : (0 < j)%Z -> 5 + (1 + / IZR j) * IZR (perr j l) <= IZR (perr j (a :: l)).
Proof. intros H. cbn [perr]. cbv zeta. rewrite !plus_IZR. pose proof (div_IZR (perr j l) j H) as D. unfold Rdiv in D. lra. Qed.
Lemma shiftr_IZR a d : (0 <= d)%Z -> IZR a / two d - 1 <= IZR (Z.shiftr a d) <= IZR a / two d.
Proof. intros H. rewrite Z.shiftr_div_pow2 by exact H. apply div_IZR, Z.pow_pos_nonneg; lia. Qed.
Lemma pstretch_ok j num e l : (0 < j)%Z -> (0 <= e)%Z -> (0 <= num)%Z -> IZR num / two e <= 3 / 4 -> small l -> forall c C w, (0 <= c)%Z -> 0 <= C -> Rabs (IZR c - C) <= 4 ->
  0 <= w <= 1 + / IZR j -> IZR num / two e * w <= 3 / 4 ->
  Rabs (peval (pstretch num e c l) w - C / two 64 * peval l (IZR num / two e * w)) <= IZR (perr j (pstretch num e c l)).
Proof.
  intros Hj He Hn Hr Hs c C w. revert c C. pose proof (two_pos e He) as E. pose proof (two_pos 64 ltac:(lia)) as T. assert (Nn : 0 <= IZR num) by (apply IZR_le; exact Hn).
  assert (R0 : 0 <= IZR num / two e) by (apply Rmult_le_pos; [exact Nn|left; apply Rinv_0_lt_compat; exact E]). set (r := IZR num / two e) in *.
  revert Hs. induction l as [|a l IH]; intros Hs c C Hc HC Hd Hw Hrw; cbn [pstretch]; [cbn [peval perr]; rewrite Rmult_0_r, Rminus_0_r, Rabs_R0; lra|].
  destruct (Z.eqb_spec c 0) as [Z0|Z0].
  - subst c. rewrite Rminus_0_l, Rabs_Ropp, Rabs_pos_eq in Hd by exact HC.
    assert (Y : Rabs (r * w) <= 3 / 4) by (rewrite Rabs_pos_eq; [exact Hrw|apply Rmult_le_pos; lra]).
    pose proof (small_peval (a :: l) (r * w) Hs Y) as B. cbn [perr]. change (peval [] w) with 0. rewrite Rminus_0_l, Rabs_Ropp, Rabs_mult, (Rabs_pos_eq (C / two 64)) by (apply Rmult_le_pos; [exact HC|left; apply Rinv_0_lt_compat; exact T]).
    apply Rle_trans with (4 / two 64 * (4 * two 64)); [apply Rmult_le_compat; [apply Rmult_le_pos; [exact HC|left; apply Rinv_0_lt_compat; exact T]|apply Rabs_pos| |exact B]; apply Rmult_le_compat_r; [left; apply Rinv_0_lt_compat; exact T|exact Hd]|].
    replace (4 / two 64 * (4 * two 64)) with 16 by (field; lra). lra.
  - cbn [peval].
    assert (Sl : small l) by (intros b Hb; apply Hs; right; exact Hb). pose proof (Hs a (or_introl eq_refl)) as A.
    pose proof (shiftr_IZR (c * num) e He) as D1. pose proof (shiftr_IZR (a * c) 64 ltac:(lia)) as D2. rewrite mult_IZR in D1, D2.
    assert (N1 : (0 <= Z.shiftr (c * num) e)%Z) by (apply Z.shiftr_nonneg; lia).
    assert (N2 : 0 <= C * r) by (apply Rmult_le_pos; assumption).
    assert (N3 : Rabs (IZR (Z.shiftr (c * num) e) - C * r) <= 4).
    { replace (IZR c * IZR num / two e) with (IZR c * r) in D1 by (unfold r, Rdiv; ring). replace (IZR (Z.shiftr (c * num) e) - C * r) with ((IZR (Z.shiftr (c * num) e) - IZR c * r) + (IZR c - C) * r) by ring.
      eapply Rle_trans; [apply Rabs_triang|]. rewrite Rabs_mult, (Rabs_pos_eq r) by exact R0. assert (Rabs (IZR c - C) * r <= 4 * (3 / 4)) by (apply Rmult_le_compat; try apply Rabs_pos; assumption). assert (Rabs (IZR (Z.shiftr (c * num) e) - IZR c * r) <= 1) by (apply Rabs_le; lra). lra. }
    specialize (IH Sl _ _ N1 N2 N3 Hw Hrw). pose proof (perr_step j (Z.shiftr (a * c) 64) (pstretch num e (Z.shiftr (c * num) e) l) Hj) as P.
    set (pr := perr j (_ :: _)) in *. set (p1 := peval (pstretch _ _ _ l) w) in *. set (p2 := peval l (r * w)) in *. set (q := IZR (perr j (pstretch num e (Z.shiftr (c * num) e) l))) in *.
    replace (IZR (Z.shiftr (a * c) 64) + w * p1 - C / two 64 * (IZR a + r * w * p2)) with ((IZR (Z.shiftr (a * c) 64) - IZR a * IZR c / two 64) + (IZR a / two 64 * (IZR c - C) + w * (p1 - C * r / two 64 * p2))) by (unfold Rdiv; ring).
    assert (X1 : Rabs (IZR (Z.shiftr (a * c) 64) - IZR a * IZR c / two 64) <= 1) by (apply Rabs_le; lra).
    assert (X2 : Rabs (IZR a / two 64 * (IZR c - C)) <= 1 * 4). { rewrite Rabs_mult. apply Rmult_le_compat; try apply Rabs_pos; [|exact Hd]. unfold Rdiv. rewrite Rabs_mult, (Rabs_pos_eq (/ two 64)) by (left; apply Rinv_0_lt_compat; exact T). apply (Rmult_le_reg_r (two 64)); [exact T|]. rewrite Rmult_assoc, Rinv_l by lra. lra. }
    assert (X3 : Rabs (w * (p1 - C * r / two 64 * p2)) <= (1 + / IZR j) * q). { rewrite Rabs_mult, (Rabs_pos_eq w) by lra. apply Rmult_le_compat; try apply Rabs_pos; lra. }
    eapply Rle_trans; [eapply Rle_trans; [apply Rabs_triang|apply Rplus_le_compat_l, Rabs_triang]|]. lra.
Qed.

(** ** Polynomials around a point *)
(** coefficients of [p (num/2^e (1 + v))] as a polynomial in [v], and their error for [|v| <= 1/j] *)
Definition around (j num e : Z) (l : list Z) : list Z * Z := let r := pstretch num e (2 ^ 64) l in (pshift r, perr j r).
Lemma around_ok j num e l v : (0 < j)%Z -> (0 <= e)%Z -> (0 <= num)%Z -> IZR num / two e <= 3 / 4 -> small l -> Rabs v <= / IZR j -> IZR num / two e * (1 + v) <= 3 / 4 ->
  Rabs (peval (fst (around j num e l)) v - peval l (IZR num / two e * (1 + v))) <= IZR (snd (around j num e l)).
Proof.
  intros Hj He Hn Hr Hs Hv Hx. unfold around. cbv zeta. cbn [fst snd]. rewrite peval_pshift. pose proof (two_pos 64 ltac:(lia)) as T.
  assert (J : 1 <= IZR j) by (apply IZR_le; lia). assert (J1 : / IZR j <= 1) by (rewrite <- Rinv_1; apply Rinv_le_contravar; lra). apply Rabs_le_between in Hv.
  pose proof (pstretch_ok j num e l Hj He Hn Hr Hs (2 ^ 64) (two 64) (1 + v) ltac:(lia) ltac:(lra) ltac:(unfold two; rewrite Rminus_diag_eq, Rabs_R0 by reflexivity; lra) ltac:(lra) Hx) as Q.
  replace (two 64 / two 64) with 1 in Q by (field; lra). rewrite Rmult_1_l in Q. exact Q.
Qed.
Definition smallb (l : list Z) : bool := forallb (fun a => Z.abs a <=? 2 ^ 64)%Z l.
Lemma smallb_ok l : smallb l = true -> small l.
Proof. intros H a Ha. unfold smallb in H. rewrite forallb_forall in H. specialize (H a Ha). apply Z.leb_le in H. rewrite <- abs_IZR. apply IZR_le, H. Qed.

(** ** Rational coefficients *)
Definition S_bits : Z := 2 ^ 64.
Definition to_Z (q : Q) : Z := Qfloor (q * inject_Z S_bits).
Lemma Q2R_inject z : Q2R (inject_Z z) = IZR z. Proof. unfold Q2R, inject_Z. cbn. field. Qed.
Lemma to_Z_ok q : Rabs (Q2R q * IZR S_bits - IZR (to_Z q)) <= 1.
Proof.
  unfold to_Z. pose proof (Qfloor_le (q * inject_Z S_bits)) as A. pose proof (Qlt_floor (q * inject_Z S_bits)) as B. apply Qle_Rle in A. apply Qlt_Rlt in B. rewrite !Q2R_inject, Q2R_mult, Q2R_inject in *. rewrite plus_IZR in B. apply Rabs_le. lra.
Qed.
Fixpoint fpartial (a : nat -> R) (N : nat) (x : R) : R := match N with O => 0 | S n => fpartial a n x + a n * x ^ n end.
Lemma fpartial_cons a N x : fpartial a (S N) x = a 0%nat + x * fpartial (fun n => a (S n)) N x.
Proof.
  induction N as [|N IH]; [cbn; ring|]. change (fpartial a (S (S N)) x) with (fpartial a (S N) x + a (S N) * x ^ S N). rewrite IH. cbn [fpartial pow]. ring.
Qed.
(** rounded list of the coefficients [a 0 .. a (N - 1)] *)
Lemma rounded_ok (a : nat -> Q) N : forall k x, 0 <= x <= 1 / 2 -> Rabs (fpartial (fun n => Q2R (a (k + n)%nat)) N x * IZR S_bits - peval (map (fun n => to_Z (a n)) (seq k N)) x) <= 2.
Proof.
  induction N as [|N IH]; intros k x Hx; [cbn; rewrite Rmult_0_l, Rminus_0_r, Rabs_R0; lra|]. rewrite fpartial_cons. cbn [seq map peval]. specialize (IH (S k) x Hx). pose proof (to_Z_ok (a k)) as Z. rewrite Nat.add_0_r.
  assert (E : fpartial (fun n => Q2R (a (k + S n)%nat)) N x = fpartial (fun n => Q2R (a (S k + n)%nat)) N x).
  { clear. induction N as [|N IH]; [reflexivity|]. cbn [fpartial]. rewrite IH. replace (k + S N)%nat with (S k + N)%nat by lia. reflexivity. }
  rewrite E. set (f := fpartial _ N x) in *. set (p := peval _ x) in *.
  replace ((Q2R (a k) + x * f) * IZR S_bits - (IZR (to_Z (a k)) + x * p)) with ((Q2R (a k) * IZR S_bits - IZR (to_Z (a k))) + x * (f * IZR S_bits - p)) by ring.
  eapply Rle_trans; [apply Rabs_triang|]. rewrite Rabs_mult, (Rabs_pos_eq x) by lra. pose proof (Rabs_pos (f * IZR S_bits - p)). nra.
Qed.

(** ** Logarithms *)
(** coefficients of [ln (1 + u)] *)
Definition lnc (n : nat) : Q := match n with O => 0 | S k => (if Nat.even k then 1 else -1) # Pos.of_succ_nat k end.
Fixpoint ln_sum (N : nat) (u : R) : R := match N with O => 0 | S n => ln_sum n u + Q2R (lnc n) * u ^ n end.
Lemma lnc_ok k : Q2R (lnc (S k)) = (-1) ^ k / INR (S k).
Proof.
  unfold lnc, Q2R. cbn [Qnum Qden]. rewrite INR_IZR_INZ. replace (Z.of_nat (S k)) with (Zpos (Pos.of_succ_nat k)) by (cbn; reflexivity). unfold Rdiv. f_equal.
  destruct (Nat.even k) eqn:E; [apply Nat.even_spec in E; destruct E as [m ->]; rewrite pow_1_even; reflexivity|].
  assert (O : Nat.odd k = true) by (rewrite <- Nat.negb_even, E; reflexivity). apply Nat.odd_spec in O. destruct O as [m ->]. rewrite Nat.add_1_r, pow_1_odd. reflexivity.
Qed.
Lemma ln_sum_derive D u : -1 < u < 1 -> is_derive (ln_sum (S D)) u ((1 - (- u) ^ D) / (1 + u)).
Proof.
  intros Hu. induction D as [|D IH].
  - apply (is_derive_ext (fun _ => 0)); [intros t; cbn [ln_sum lnc]; unfold Q2R; cbn; ring|]. replace ((1 - (- u) ^ 0) / (1 + u)) with (zero : R) by (cbn; change (zero : R) with 0; field; lra). apply (is_derive_const (V := R_NormedModule)).
  - change (is_derive (fun u => ln_sum (S D) u + Q2R (lnc (S D)) * u ^ S D) u ((1 - (- u) ^ S D) / (1 + u))).
    assert (E : is_derive (fun u => Q2R (lnc (S D)) * u ^ S D) u (Q2R (lnc (S D)) * (INR (S D) * u ^ D))).
    { replace (INR (S D) * u ^ D) with (INR (S D) * 1 * u ^ pred (S D)) by (cbn [pred]; ring). apply is_derive_scal. apply (is_derive_pow (fun u => u) (S D) u 1). apply (is_derive_id (K := R_AbsRing)). }
    pose proof (is_derive_plus (V := R_NormedModule) _ _ u _ _ IH E) as Q. replace ((1 - (- u) ^ S D) / (1 + u)) with (plus ((1 - (- u) ^ D) / (1 + u)) (Q2R (lnc (S D)) * (INR (S D) * u ^ D))); [exact Q|].
    change ((1 - (- u) ^ D) / (1 + u) + Q2R (lnc (S D)) * (INR (S D) * u ^ D) = (1 - (- u) ^ S D) / (1 + u)). rewrite lnc_ok. assert (P : INR (S D) <> 0) by (apply not_0_INR; lia).
    replace ((- u) ^ S D) with (- u * (- u) ^ D) by reflexivity. replace ((- u) ^ D) with ((-1) ^ D * u ^ D) by (rewrite <- Rpow_mult_distr; f_equal; ring). field. split; [lra|exact P].
Qed.
Lemma ln_sum_0 D : ln_sum (S D) 0 = 0.
Proof. induction D as [|D IH]; [cbn [ln_sum lnc]; unfold Q2R; cbn; ring|]. change (ln_sum (S D) 0 + Q2R (lnc (S D)) * 0 ^ S D = 0). rewrite IH, pow_i by lia. ring. Qed.
Lemma ln_sum_ok D u : Rabs u < 1 -> Rabs (ln (1 + u) - ln_sum (S D) u) <= Rabs u ^ S D / (1 - Rabs u).
Proof.
  intros Hu. assert (Hu' := Hu). apply Rabs_def2 in Hu'. assert (B : forall x, Rmin 0 u <= x <= Rmax 0 u -> Rabs x <= Rabs u).
  { intros x Hx. unfold Rmin, Rmax in Hx. destruct (Rle_dec 0 u); [rewrite !Rabs_pos_eq by lra|rewrite !Rabs_left1 by lra]; lra. }
  assert (Dr : forall x, Rmin 0 u <= x <= Rmax 0 u -> is_derive (fun x => ln (1 + x) - ln_sum (S D) x) x ((- x) ^ D / (1 + x))).
  { intros x Hx. pose proof (B x Hx) as Bx. assert (Hx1 : Rabs x < 1) by lra. apply Rabs_def2 in Hx1.
    replace ((- x) ^ D / (1 + x)) with (minus (/ (1 + x)) ((1 - (- x) ^ D) / (1 + x))) by (change (/ (1 + x) - (1 - (- x) ^ D) / (1 + x) = (- x) ^ D / (1 + x)); field; lra).
    apply (is_derive_minus (V := R_NormedModule)); [|apply ln_sum_derive; lra]. auto_derive; [lra|]. match goal with |- @eq _ ?a ?b => change (@eq R a b) end. field. lra. }
  destruct (MVT_gen (fun x => ln (1 + x) - ln_sum (S D) x) 0 u (fun x => (- x) ^ D / (1 + x))) as (c & Hc & E).
  - intros x Hx. apply Dr. lra.
  - intros x Hx. apply continuity_pt_filterlim. apply (ex_derive_continuous (V := R_NormedModule) (fun x => ln (1 + x) - ln_sum (S D) x) x). eexists. apply Dr, Hx.
  - rewrite ln_sum_0, Rplus_0_r, ln_1, !Rminus_0_r in E. rewrite E. pose proof (B c Hc) as Bc. assert (Hc1 : Rabs c < 1) by lra. apply Rabs_def2 in Hc1. pose proof (Rabs_pos u) as Pu. pose proof (Rabs_pos c) as Pc.
    rewrite Rabs_mult. unfold Rdiv. rewrite Rabs_mult, <- RPow_abs, Rabs_Ropp, (Rabs_pos_eq (/ (1 + c))) by (left; apply Rinv_0_lt_compat; lra).
    replace (Rabs u ^ S D * / (1 - Rabs u)) with (Rabs u ^ D * / (1 - Rabs u) * Rabs u) by (cbn [pow]; ring). apply Rmult_le_compat_r; [exact Pu|]. apply Rmult_le_compat; [apply pow_le; lra|left; apply Rinv_0_lt_compat; lra|apply pow_incr; lra|].
    apply Rinv_le_contravar; [lra|]. pose proof (Rle_abs (- c)). rewrite Rabs_Ropp in H. lra.
Qed.
(** [ln ((d + 1) / (d - 1))], scaled by [2^80]: the terms [2 / ((2 k + 1) d^(2 k + 1))] *)
Fixpoint lnz (d : Z) (n : nat) : Z := match n with O => 0 | S k => (lnz d k + 2 ^ 81 / (Z.of_nat (2 * k + 1) * d ^ Z.of_nat (2 * k + 1)))%Z end.
Lemma ln_sum_odd n u : ln_sum (2 * n + 1) u - ln_sum (2 * n + 1) (- u) = 2 * fpartial (fun k => u / INR (2 * k + 1)) n (u * u).
Proof.
  induction n as [|n IH]; [cbn; ring|]. replace (2 * S n + 1)%nat with (S (S (2 * n + 1))) by lia.
  change (ln_sum (S (S (2 * n + 1))) u) with (ln_sum (2 * n + 1) u + Q2R (lnc (2 * n + 1)) * u ^ (2 * n + 1) + Q2R (lnc (S (2 * n + 1))) * u ^ S (2 * n + 1)).
  change (ln_sum (S (S (2 * n + 1))) (- u)) with (ln_sum (2 * n + 1) (- u) + Q2R (lnc (2 * n + 1)) * (- u) ^ (2 * n + 1) + Q2R (lnc (S (2 * n + 1))) * (- u) ^ S (2 * n + 1)).
  assert (E1 : Q2R (lnc (2 * n + 1)) = 1 / INR (2 * n + 1)) by (replace (2 * n + 1)%nat with (S (2 * n)) by lia; rewrite lnc_ok, pow_1_even; reflexivity). rewrite E1.
  replace (- u) with (-1 * u) by ring. rewrite !Rpow_mult_distr. replace ((-1) ^ (2 * n + 1)) with (-1) by (rewrite Nat.add_1_r, pow_1_odd; reflexivity). replace ((-1) ^ S (2 * n + 1)) with 1 by (replace (S (2 * n + 1)) with (2 * S n)%nat by lia; rewrite pow_1_even; reflexivity).
  cbn [fpartial]. rewrite Rmult_plus_distr_l, <- IH. replace (-1 * u) with (- u) by ring. replace (u / INR (2 * n + 1) * (u * u) ^ n) with (u ^ (2 * n + 1) / INR (2 * n + 1)) by (rewrite pow_add, pow_mult, pow_1; replace (u ^ 2) with (u * u) by ring; generalize ((u * u) ^ n) (INR (2 * n + 1)); intros; unfold Rdiv; ring).
  generalize (INR (2 * n + 1)) (u ^ (2 * n + 1)) (u ^ S (2 * n + 1)) (ln_sum (2 * n + 1) u) (ln_sum (2 * n + 1) (- u)) (Q2R (lnc (S (2 * n + 1)))). intros. unfold Rdiv. ring.
Qed.
Lemma lnz_sum d n : (2 <= d)%Z -> Rabs (2 * fpartial (fun k => / IZR d / INR (2 * k + 1)) n (/ IZR d * / IZR d) * 2 ^ 80 - IZR (lnz d n)) <= INR n.
Proof.
  intros Hd. assert (D : 2 <= IZR d) by (apply IZR_le; exact Hd). induction n as [|n IH]; [cbn; rewrite Rmult_0_r, Rmult_0_l, Rminus_0_r, Rabs_R0; lra|].
  cbn [fpartial lnz]. rewrite S_INR, plus_IZR. set (m := (2 * n + 1)%nat) in *. assert (Hm : 1 <= INR m) by (apply (le_INR 1); unfold m; lia).
  assert (Hp : 0 < IZR d ^ m) by (apply pow_lt; lra).
  assert (Q : (0 < Z.of_nat m * d ^ Z.of_nat m)%Z) by (apply Z.mul_pos_pos; [unfold m; lia|apply Z.pow_pos_nonneg; lia]).
  pose proof (div_IZR (2 ^ 81) _ Q) as B. rewrite mult_IZR, <- INR_IZR_INZ, <- pow_IZR in B. replace (IZR (2 ^ 81)) with (2 ^ 81) in B by (rewrite (pow_IZR 2 81); reflexivity).
  assert (E : / IZR d / INR m * (/ IZR d * / IZR d) ^ n = / (INR m * IZR d ^ m)).
  { replace (/ IZR d * / IZR d) with ((/ IZR d) ^ 2) by (cbn; ring). rewrite <- pow_mult. replace (/ IZR d / INR m * (/ IZR d) ^ (2 * n)) with ((/ IZR d) ^ m / INR m) by (unfold m; rewrite pow_add, pow_1; generalize (INR (2 * n + 1)); intros; unfold Rdiv; ring).
    rewrite pow_inv. unfold Rdiv. rewrite Rinv_mult. ring. }
  rewrite E. set (z := (2 ^ 81 / _)%Z) in *. set (y := INR m * IZR d ^ m) in *. assert (Y : 0 < y) by (apply Rmult_lt_0_compat; lra). clearbody y z.
  set (f := fpartial _ n _) in *. set (l := IZR (lnz d n)) in *. clearbody f l. unfold Rdiv in B. apply Rabs_le_between in IH. apply Rabs_le. lra.
Qed.
(** ten terms *)
Lemma lnz_ok d : (18 <= d)%Z -> Rabs (ln ((IZR d + 1) / (IZR d - 1)) - IZR (lnz d 10) / 2 ^ 80) <= / 2 ^ 76.
Proof.
  intros Hd. assert (D : 18 <= IZR d) by (apply IZR_le; exact Hd). set (u := / IZR d). assert (Hu : 0 < u <= 1 / 18). { unfold u. split; [apply Rinv_0_lt_compat; lra|]. replace (1 / 18) with (/ 18) by field. apply Rinv_le_contravar; lra. }
  replace ((IZR d + 1) / (IZR d - 1)) with ((1 + u) / (1 + - u)) by (unfold u; field; lra). rewrite ln_div by lra.
  pose proof (ln_sum_ok 20 u ltac:(rewrite Rabs_pos_eq; lra)) as A. pose proof (ln_sum_ok 20 (- u) ltac:(rewrite Rabs_Ropp, Rabs_pos_eq; lra)) as B. rewrite Rabs_Ropp in B. rewrite (Rabs_pos_eq u) in A, B by lra.
  assert (P : u ^ 21 / (1 - u) <= (1 / 18) ^ 21 * (18 / 17)). { apply Rmult_le_compat; [apply pow_le; lra|left; apply Rinv_0_lt_compat; lra|apply pow_incr; lra|]. replace (18 / 17) with (/ (17 / 18)) by field. apply Rinv_le_contravar; lra. }
  pose proof (ln_sum_odd 10 u) as O. change (2 * 10 + 1)%nat with 21%nat in O. pose proof (lnz_sum d 10 ltac:(lia)) as Z. fold u in Z. replace (2 * fpartial (fun k => u / INR (2 * k + 1)) 10 (u * u)) with (ln_sum 21 u - ln_sum 21 (- u)) in Z by exact O.
  replace (INR 10) with 10 in Z by (cbn; ring). set (s := ln_sum 21 u) in *. set (t := ln_sum 21 (- u)) in *. set (l := IZR (lnz d 10)) in *. set (a := ln (1 + u)) in *. set (b := ln (1 + - u)) in *. clearbody s t l a b. clear O.
  assert (Z' : Rabs (s - t - l / 2 ^ 80) <= 10 / 2 ^ 80). { apply (Rmult_le_reg_r (2 ^ 80)); [lra|]. rewrite <- (Rabs_pos_eq (2 ^ 80)) at 2 by lra. rewrite <- Rabs_mult. replace ((s - t - l / 2 ^ 80) * 2 ^ 80) with ((s - t) * 2 ^ 80 - l) by (field; lra). lra. }
  apply Rabs_le_between in Z'. apply Rabs_le_between in A. apply Rabs_le_between in B. apply Rabs_le. set (w := u ^ 21 / (1 - u)) in *. clearbody w. lra.
Qed.
Fixpoint qpow (q : Q) (n : nat) : Q := match n with O => 1 | S n => q * qpow q n end.
Lemma Q2R_pow q n : Q2R (qpow q n) = Q2R q ^ n.
Proof. induction n as [|n IH]; [unfold Q2R; cbn; field|]. cbn [qpow pow]. rewrite Q2R_mult, IH. reflexivity. Qed.
