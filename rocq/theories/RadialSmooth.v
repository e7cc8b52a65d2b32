(** The force in a field of radially symmetric geometry is smooth along every curve that keeps off the axis and off the charged rings. *)
From Coq Require Import Reals Lra Lia Psatz.
From Coquelicot Require Import Coquelicot.
From Verif Require Import Base BaseFacts Vec GeomModel OutwardFacts FieldModel FieldFacts TracingModel TracingFacts Field3DFacts SeriesFacts ConvSpec ConvFacts ConvStep ExprSpec ExprFacts ExprSmooth ExprTube BemSmooth.
Local Open Scope R_scope.

(** ** Specification *)
(** No ring of [c] passes through [p]; rings have a radius that is not negative. *)
Definition off_rings (c : charges) (p : vec3) : Prop :=
  forall x jp, In x (q_items c) -> In jp (snd x) -> 0 <= vx (snd jp) /\ (vx (snd jp), vz (snd jp)) <> (norm_2d (vx p) (vy p), vz p).
(** The point is off the axis, and within the bounds of the field if there are any. *)
Definition in_field (f : bem) (p : vec3) : Prop :=
  MIN_DISTANCE_AXIS < norm_2d (vx p) (vy p) /\
  match b_bounds f with None => True | Some (lo, hi) => vx lo < vx p < vx hi /\ vy lo < vy p < vy hi end.

(** ** Expressions for the fields of rings *)
Definition neg (e : expr) : expr := times (-1) e.
Definition sq (e : expr) : expr := EMul e e.
Fixpoint pow_expr (e : expr) (n : nat) : expr := match n with O => EConst 1 | S n => EMul e (pow_expr e n) end.
Definition rho2 : expr := EAdd (sq (EVar 0)) (sq (EVar 1)).
Definition irad : expr := EPow rho2 1.
Definition rad : expr := EMul rho2 irad.
Lemma positive_add a b s : positive a s -> positive b s -> positive (EAdd a b) s. Proof. intros; split; assumption. Qed.
Lemma positive_mul a b s : positive a s -> positive b s -> positive (EMul a b) s. Proof. intros; split; assumption. Qed.
Lemma positive_const x s : positive (EConst x) s. Proof. exact I. Qed.
Ltac parts := unfold neg, times, sq; repeat first [assumption | match goal with |- positive (EAdd _ _) _ => apply positive_add | |- positive (EMul _ _) _ => apply positive_mul | |- positive (EConst _) _ => exact I | |- positive (EVar _) _ => exact I end].
Section Ring.
  Context (q : vec3).
  Definition e_dr : expr := EAdd (EConst (vx q)) (neg rad).
  Definition e_dz : expr := EAdd (EConst (vz q)) (neg (EVar 2)).
  Definition e_D : expr := EAdd (sq e_dz) (sq e_dr).
  Definition e_S : expr := EAdd (EMul (EConst (4 * vx q)) rad) e_D.
  Definition e_L : expr := EAdd (ELn e_S) (neg (ELn e_D)).
  Definition e_arg : expr := EMul e_D (EPow e_S 2).
  Definition cheb (A B : list R) : expr :=
    sum_expr (map (fun iab => (1, EMul (EAdd (EConst (fst (snd iab))) (EMul e_L (EConst (snd (snd iab))))) (pow_expr e_arg (fst iab)))) (combine (arange 8) (combine A B))).
  Definition KA : list R := [ln 4; 9.65736020516771e-2; 3.08909633861795e-2; 1.52618320622534e-2; 1.25565693543211e-2; 1.68695685967517e-2; 1.09423810688623e-2; 1.40704915496101e-3].
  Definition KB : list R := [1 / 2; 1.24999998585309e-1; 7.03114105853296e-2; 4.87379510945218e-2; 3.57218443007327e-2; 2.09857677336790e-2; 5.81807961871996e-3; 3.42805719229748e-4].
  Definition EA : list R := [1; 4.43147193467733e-1; 5.68115681053803e-2; 2.21862206993846e-2; 1.56847700239786e-2; 1.92284389022977e-2; 1.21819481486695e-2; 1.55618744745296e-3].
  Definition EB : list R := [0; 2.49999998448655e-1; 9.37488062098189e-2; 5.84950297066166e-2; 4.09074821593164e-2; 2.35091602564984e-2; 6.45682247315060e-3; 3.78886487349367e-4].
  Definition e_K : expr := cheb KA KB.
  Definition e_E : expr := cheb EA EB.
  (** common factors 1 / D and 1 / sqrt S *)
  Definition over (e : expr) : expr := EMul e (EMul (EPow e_D 2) (EPow e_S 1)).
  Definition e_dr1 : expr :=
    times (/ PI * - / 2) (EMul irad (over (EAdd (EMul (times (vx q) e_D) e_K)
      (EMul (EAdd (times (-2 * (vx q * vx q)) e_dr) (times (vx q) (EAdd (sq e_dr) (neg (sq e_dz))))) e_E)))).
  Definition e_dz1 : expr := times (/ PI * vx q) (over (EMul e_dz e_E)).
  (** currents: the height is counted from the ring *)
  Definition e_cr : expr :=
    if Rlt_dec (vx q) MIN_DISTANCE_AXIS then EConst 0 else
    times (- / PI * / 2) (EMul irad (over (EMul e_dz (EAdd (EMul (EAdd (EAdd (sq e_dz) rho2) (EConst (vx q * vx q))) e_E) (neg (EMul e_D e_K)))))).
  Definition e_cz : expr :=
    if Rlt_dec (vx q) MIN_DISTANCE_AXIS then EConst 0 else
    times (/ PI * / 2) (over (EAdd (EMul (EAdd (EConst (vx q * vx q)) (neg (EAdd (sq e_dz) rho2))) e_E) (EMul e_D e_K))).

  (** The ring does not pass through the point of the state. *)
  Definition off_ring (s : state) : Prop := 0 <= vx q /\ 0 < eval rho2 s /\ 0 < eval e_D s.

  Lemma positive_sum l s : (forall x e, In (x, e) l -> positive e s) -> positive (sum_expr l) s.
  Proof. induction l as [|[x e] l IH]; intros H; cbn; [exact I|]. split; [split; [exact I|apply (H x); left; reflexivity]|apply IH; intros; eapply H; right; eassumption]. Qed.
  Lemma positive_pow e n s : positive e s -> positive (pow_expr e n) s.
  Proof. induction n; cbn; auto. Qed.
  Lemma eval_pow e n s : eval (pow_expr e n) s = eval e s ^ n.
  Proof. induction n as [|n IH]; [reflexivity|]. cbn [pow_expr eval pow]. rewrite IH. reflexivity. Qed.
  Lemma eval_rho2 s : eval rho2 s = vx (s_pos s) * vx (s_pos s) + vy (s_pos s) * vy (s_pos s).
  Proof. reflexivity. Qed.
  Lemma eval_irad s : eval irad s = / norm_2d (vx (s_pos s)) (vy (s_pos s)).
  Proof. cbn. rewrite Rmult_1_r. reflexivity. Qed.
  Lemma eval_rad s : 0 < eval rho2 s -> eval rad s = norm_2d (vx (s_pos s)) (vy (s_pos s)).
  Proof.
    intros H. unfold rad. cbn [eval]. rewrite eval_irad, eval_rho2 in *. unfold norm_2d. pose proof (sqrt_lt_R0 _ H) as P. rewrite <- (sqrt_sqrt _ (Rlt_le _ _ H)) at 1. field. lra.
  Qed.
  Context (s : state) (Off : off_ring s).
  Notation r0 := (norm_2d (vx (s_pos s)) (vy (s_pos s))).
  Notation z0 := (vz (s_pos s)).
  Lemma r0_pos : 0 < r0.
  Proof. destruct Off as (_ & H & _). unfold norm_2d. apply sqrt_lt_R0. exact H. Qed.
  Lemma r0_sq : r0 * r0 = eval rho2 s.
  Proof. destruct Off as (_ & H & _). unfold norm_2d. rewrite sqrt_sqrt; [reflexivity|]. apply Rlt_le. exact H. Qed.
  Lemma eval_dr : eval e_dr s = vx q - r0.
  Proof. destruct Off as (_ & H & _). unfold e_dr, neg, times. cbn [eval]. rewrite (eval_rad s H). ring. Qed.
  Lemma eval_dz : eval e_dz s = vz q - z0.
  Proof. unfold e_dz, neg, times. cbn [eval comp]. ring. Qed.
  Lemma eval_D : eval e_D s = (vz q - z0) * (vz q - z0) + (vx q - r0) * (vx q - r0).
  Proof. unfold e_D, sq. cbn [eval]. rewrite eval_dr, eval_dz. ring. Qed.
  Lemma eval_S : eval e_S s = 4 * vx q * r0 + eval e_D s.
  Proof. destruct Off as (_ & H & _). unfold e_S. cbn [eval]. rewrite (eval_rad s H). ring. Qed.
  Lemma D_pos : 0 < eval e_D s. Proof. apply Off. Qed.
  Lemma S_pos : 0 < eval e_S s.
  Proof. rewrite eval_S. destruct Off as (A & _ & C). pose proof (Rmult_le_pos _ _ A (Rlt_le _ _ r0_pos)). lra. Qed.
  Lemma positive_rad : positive rho2 s /\ positive irad s /\ positive rad s.
  Proof. destruct Off as (_ & H & _). unfold rad, irad, rho2, sq in *. cbn [positive eval] in *. repeat split; exact H. Qed.
  Lemma positive_D : positive e_D s /\ positive e_dr s /\ positive e_dz s.
  Proof. pose proof positive_rad as (A & B & C). unfold e_D, e_dr, e_dz, sq, neg, times. cbn [positive]. repeat split; apply C. Qed.
  Lemma positive_S : positive e_S s.
  Proof. split; [split; [exact I|apply positive_rad]|apply positive_D]. Qed.
  Lemma positive_powers k : positive (EPow e_D k) s /\ positive (EPow e_S k) s.
  Proof. split; (split; [first [exact D_pos|exact S_pos]|first [exact positive_S|apply positive_D]]). Qed.
  Lemma positive_cheb A B : positive (cheb A B) s.
  Proof.
    unfold cheb. apply positive_sum. intros x e Hx. apply in_map_iff in Hx. destruct Hx as ([i [a b]] & E & _). injection E as <- <-. cbn [fst snd].
    split; [split; [exact I|split; [|exact I]]|].
    - split; [split; [exact S_pos|exact positive_S]|split; [exact I|split; [exact D_pos|apply positive_D]]].
    - apply positive_pow. split; [apply positive_D|apply positive_powers].
  Qed.
  Lemma positive_over e : positive e s -> positive (over e) s.
  Proof. intros H. split; [exact H|]. split; apply positive_powers. Qed.
  Lemma positive_dr1 : positive e_dr1 s.
  Proof.
    pose proof positive_rad as (A1 & A2 & _). pose proof positive_D as (B1 & B2 & B3). split; [exact I|]. split; [exact A2|]. apply positive_over. parts; apply positive_cheb.
  Qed.
  Lemma positive_dz1 : positive e_dz1 s.
  Proof. pose proof positive_D as (B1 & B2 & B3). split; [exact I|]. apply positive_over. split; [exact B3|apply positive_cheb]. Qed.
  Lemma positive_cr : positive e_cr s.
  Proof.
    unfold e_cr. destruct (Rlt_dec _ _); [exact I|]. pose proof positive_rad as (A1 & A2 & _). pose proof positive_D as (B1 & B2 & B3). split; [exact I|]. split; [exact A2|]. apply positive_over.
    parts; apply positive_cheb.
  Qed.
  Lemma positive_cz : positive e_cz s.
  Proof.
    unfold e_cz. destruct (Rlt_dec _ _); [exact I|]. pose proof positive_rad as (A1 & A2 & _). pose proof positive_D as (B1 & B2 & B3). split; [exact I|]. apply positive_over.
    parts; apply positive_cheb.
  Qed.
  Lemma eval_EPow2 e : 0 < eval e s -> eval (EPow e 2) s = / eval e s.
  Proof. intros H. cbn [eval]. pose proof (sqrt_lt_R0 _ H) as P. rewrite <- (sqrt_sqrt _ (Rlt_le _ _ H)) at 2. cbn [pow]. field. lra. Qed.
  Lemma eval_EPow1 e : eval (EPow e 1) s = / sqrt (eval e s).
  Proof. cbn [eval]. cbn [pow]. ring. Qed.
  Lemma eval_arg : eval e_arg s = eval e_D s / eval e_S s.
  Proof. unfold e_arg. change (eval (EMul e_D (EPow e_S 2)) s) with (eval e_D s * eval (EPow e_S 2) s). rewrite (eval_EPow2 e_S S_pos). reflexivity. Qed.
  Lemma eval_L : eval e_L s = ln (1 / (eval e_D s / eval e_S s)).
  Proof.
    unfold e_L, neg, times. cbn [eval]. pose proof D_pos as PD. pose proof S_pos as PS. generalize dependent (eval e_D s). generalize dependent (eval e_S s). intros S PS D PD.
    replace (1 / (D / S)) with (S * / D) by (field; lra). rewrite ln_mult, ln_Rinv; [ring|exact PD|exact PS|apply Rinv_0_lt_compat; exact PD].
  Qed.
  Lemma eval_cheb A B : eval (cheb A B) s = chebyshev A B (eval e_D s / eval e_S s).
  Proof.
    unfold cheb, chebyshev. rewrite eval_sum, map_map. cbn [fst snd]. apply Rsum_ext. intros [i [a b]] _. cbn [fst snd].
    rewrite Rmult_1_l. cbn [eval]. fold (eval e_L s). rewrite eval_pow, eval_arg, eval_L. reflexivity.
  Qed.
  Lemma eval_K : eval e_K s = ellipkm1 (eval e_D s / eval e_S s).
  Proof. unfold e_K. rewrite eval_cheb. reflexivity. Qed.
  Lemma eval_E : eval e_E s = ellipem1 (eval e_D s / eval e_S s).
  Proof. unfold e_E. rewrite eval_cheb. reflexivity. Qed.
  Lemma eval_over e : eval (over e) s = eval e s / eval e_D s / sqrt (eval e_S s).
  Proof. unfold over. change (eval e s * (eval (EPow e_D 2) s * eval (EPow e_S 1) s) = eval e s / eval e_D s / sqrt (eval e_S s)). rewrite (eval_EPow2 e_D D_pos), eval_EPow1. unfold Rdiv. ring. Qed.
  Lemma eval_dr1 : MIN_DISTANCE_AXIS <= r0 -> eval e_dr1 s = dr1_potential_radial_ring r0 z0 (vx q) (vz q).
  Proof.
    intros HM. unfold dr1_potential_radial_ring. destruct (Rlt_dec r0 MIN_DISTANCE_AXIS) as [L|_]; [lra|]. cbv zeta.
    unfold e_dr1, times, neg, sq. cbn [eval]. fold (eval irad s). rewrite eval_over, eval_irad. unfold times. cbn [eval]. rewrite eval_K, eval_E, eval_dr, eval_dz.
    pose proof D_pos as PD. pose proof S_pos as PS. pose proof r0_pos as P0. pose proof PI_RGT_0 as PP. pose proof (sqrt_lt_R0 _ PS) as PQ.
    assert (ED : (vz q - z0) * (vz q - z0) + (vx q - r0) * (vx q - r0) = eval e_D s) by (symmetry; apply eval_D).
    assert (ES : 4 * vx q * vx q - 4 * (vx q - r0) * vx q + (vz q - z0) * (vz q - z0) + (vx q - r0) * (vx q - r0) = eval e_S s) by (rewrite eval_S, eval_D; ring).
    rewrite ES, ED. set (K := ellipkm1 _). set (E := ellipem1 _).
    replace (-2 * (vx q - r0) * (vx q - r0) * vx q + (vz q - z0) * (vz q - z0) * (2 * (vx q - r0) - 2 * vx q) + 2 * (vx q - r0) * (vx q - r0) * (vx q - r0)) with (-2 * r0 * eval e_D s) by (rewrite <- ED; ring).
    replace ((vz q - z0) * (vz q - z0) * vx q + (vx q - r0) * (vx q - r0) * vx q) with (vx q * eval e_D s) by (rewrite <- ED; ring).
    field. repeat split; lra.
  Qed.
  Lemma eval_dz1 : eval e_dz1 s = dz1_potential_radial_ring r0 z0 (vx q) (vz q).
  Proof.
    unfold dz1_potential_radial_ring. cbv zeta. unfold e_dz1, times. cbn [eval]. rewrite eval_over. cbn [eval]. rewrite eval_E, eval_dz.
    pose proof D_pos as PD. pose proof S_pos as PS. pose proof r0_pos as P0. pose proof PI_RGT_0 as PP. pose proof (sqrt_lt_R0 _ PS) as PQ.
    assert (ED : (vz q - z0) * (vz q - z0) + (vx q - r0) * (vx q - r0) = eval e_D s) by (symmetry; apply eval_D).
    assert (ES : 4 * r0 * r0 + 4 * (vx q - r0) * r0 + (vz q - z0) * (vz q - z0) + (vx q - r0) * (vx q - r0) = eval e_S s) by (rewrite eval_S, eval_D; ring).
    rewrite ES, ED. set (E := ellipem1 _). field. repeat split; lra.
  Qed.
  Lemma elliptic_args : MIN_DISTANCE_AXIS <= vx q -> let A := (z0 - vz q) ^ 2 + (vx q + r0) ^ 2 in
    A = eval e_S s /\ (z0 - vz q) ^ 2 + (r0 - vx q) ^ 2 = eval e_D s /\
    ellipk (4 * r0 * vx q / A) = ellipkm1 (eval e_D s / eval e_S s) /\ ellipe (4 * r0 * vx q / A) = ellipem1 (eval e_D s / eval e_S s).
  Proof.
    intros HM A. pose proof D_pos as PD. pose proof S_pos as PS. pose proof r0_pos as P0. assert (PX : 0 < vx q) by (unfold MIN_DISTANCE_AXIS in HM; lra).
    assert (EA' : A = eval e_S s) by (unfold A; rewrite eval_S, eval_D; ring). assert (EB' : (z0 - vz q) ^ 2 + (r0 - vx q) ^ 2 = eval e_D s) by (rewrite eval_D; ring).
    split; [exact EA'|]. split; [exact EB'|]. rewrite EA'. assert (E4 : eval e_S s = 4 * vx q * r0 + eval e_D s) by apply eval_S.
    set (k := 4 * r0 * vx q / eval e_S s). assert (EK : 1 - k = eval e_D s / eval e_S s) by (unfold k; rewrite E4; field; rewrite E4 in PS; lra).
    assert (KP : 0 < k). { unfold k. apply Rdiv_lt_0_compat; [|exact PS]. apply Rmult_lt_0_compat; [lra|exact PX]. }
    assert (K1 : k < 1). { assert (0 < eval e_D s / eval e_S s) by (apply Rdiv_lt_0_compat; assumption). lra. }
    unfold ellipk, ellipe. destruct (Rlt_dec (-1) k) as [_|N]; [|lra]. destruct (Rle_dec 0 k) as [_|N]; [|lra]. destruct (Rle_dec k 1) as [_|N]; [|lra]. rewrite EK. split; reflexivity.
  Qed.
  Lemma eval_current : MIN_DISTANCE_AXIS <= r0 -> current_field_radial_ring r0 z0 (vx q) (vz q) = (eval e_cr s, eval e_cz s).
  Proof.
    intros HM. unfold current_field_radial_ring, e_cr, e_cz. cbv zeta. destruct (Rlt_dec (vx q) MIN_DISTANCE_AXIS) as [L|L]; [reflexivity|]. destruct (Rlt_dec r0 MIN_DISTANCE_AXIS) as [L0|_]; [lra|].
    destruct (elliptic_args ltac:(lra)) as (EA' & EB' & EK & EE). rewrite EK, EE, EA', EB'.
    pose proof D_pos as PD. pose proof S_pos as PS. pose proof r0_pos as P0. pose proof PI_RGT_0 as PP. pose proof (sqrt_lt_R0 _ PS) as PQ.
    unfold times, neg, sq. cbn [eval]. fold (eval irad s). rewrite !eval_over, eval_irad. unfold times. cbn [eval]. fold (eval rho2 s). rewrite eval_K, eval_E, eval_dz, <- r0_sq.
    set (K := ellipkm1 _). set (E := ellipem1 _). f_equal; field; repeat split; lra.
  Qed.
End Ring.

(** ** The force *)
Definition ring_sum (k : vec3 -> expr) (c : charges) : expr :=
  sum_expr (map (fun x => (fst x, sum_expr (map (fun jp => (fst jp, k (snd jp))) (snd x)))) (q_items c)).
Definition along_x (er : expr) : expr := EMul (EMul (EVar 0) irad) er.
Definition along_y (er : expr) : expr := EMul (EMul (EVar 1) irad) er.
Definition magnet_x (f : bem) : expr := EAdd (along_x (ring_sum e_cr (b_cur f))) (along_x (neg (ring_sum e_dr1 (b_mag f)))).
Definition magnet_y (f : bem) : expr := EAdd (along_y (ring_sum e_cr (b_cur f))) (along_y (neg (ring_sum e_dr1 (b_mag f)))).
Definition magnet_z (f : bem) : expr := EAdd (ring_sum e_cz (b_cur f)) (neg (ring_sum e_dz1 (b_mag f))).
Definition radial_x (f : bem) : expr := EAdd (along_x (neg (ring_sum e_dr1 (b_elec f)))) (cross_expr 4 5 (magnet_y f) (magnet_z f)).
Definition radial_y (f : bem) : expr := EAdd (along_y (neg (ring_sum e_dr1 (b_elec f)))) (cross_expr 5 3 (magnet_z f) (magnet_x f)).
Definition radial_z (f : bem) : expr := EAdd (neg (ring_sum e_dz1 (b_elec f))) (cross_expr 3 4 (magnet_x f) (magnet_y f)).
(** This expression has a value exactly where the force is smooth. *)
Definition ring_guard (c : charges) : expr := ring_sum (fun q => ELn (e_D q)) c.
Definition axis_guard : expr := EAdd (ELn rho2) (ELn (EAdd rho2 (EConst (- (MIN_DISTANCE_AXIS * MIN_DISTANCE_AXIS))))).
Definition between (lo hi : R) (i : nat) : expr := EAdd (ELn (EAdd (EVar i) (EConst (- lo)))) (ELn (EAdd (EConst hi) (neg (EVar i)))).
Definition bounds_guard (f : bem) : expr :=
  match b_bounds f with None => EConst 0 | Some (lo, hi) => EAdd (between (vx lo) (vx hi) 0) (between (vy lo) (vy hi) 1) end.
Definition guard (f : bem) : expr := EAdd axis_guard (EAdd (bounds_guard f) (EAdd (ring_guard (b_elec f)) (EAdd (ring_guard (b_mag f)) (ring_guard (b_cur f))))).
Definition no_negative_radius (c : charges) : Prop := forall x jp, In x (q_items c) -> In jp (snd x) -> 0 <= vx (snd jp).

Lemma ring_sum_positive (k : vec3 -> expr) c s : (forall x jp, In x (q_items c) -> In jp (snd x) -> positive (k (snd jp)) s) -> positive (ring_sum k c) s.
Proof.
  intros H. unfold ring_sum. apply positive_sum. intros x e Hx. apply in_map_iff in Hx. destruct Hx as (item & E & Hx). injection E as <- <-.
  apply positive_sum. intros y e Hy. apply in_map_iff in Hy. destruct Hy as (jp & E & Hy). injection E as <- <-. apply (H item jp Hx Hy).
Qed.
Lemma sum_positive l s x e : positive (sum_expr l) s -> In (x, e) l -> positive e s.
Proof. induction l as [|[y e'] l IH]; intros H E; [destruct E|]. destruct E as [E|E]; [injection E as -> ->; apply H|apply IH; [apply H|exact E]]. Qed.
Lemma positive_ring_sum (k : vec3 -> expr) c s x jp : positive (ring_sum k c) s -> In x (q_items c) -> In jp (snd x) -> positive (k (snd jp)) s.
Proof.
  intros H Hx Hj. unfold ring_sum in H. eapply sum_positive; [eapply sum_positive; [exact H|]|].
  - apply in_map_iff. exists x. split; [reflexivity|exact Hx].
  - apply in_map_iff. exists jp. split; [reflexivity|exact Hj].
Qed.
Lemma eval_ring_sum (k : vec3 -> expr) c s : eval (ring_sum k c) s = evaluate (fun q => eval (k q) s) c.
Proof.
  unfold ring_sum. rewrite eval_sum, map_map. cbn [fst snd]. unfold evaluate. apply Rsum_ext. intros x _. f_equal.
  rewrite eval_sum, map_map. cbn [fst snd]. reflexivity.
Qed.
Lemma evaluate_same k k' c : (forall x jp, In x (q_items c) -> In jp (snd x) -> k (snd jp) = k' (snd jp)) -> evaluate k c = evaluate k' c.
Proof. intros H. unfold evaluate. apply Rsum_ext. intros x Hx. f_equal. unfold source_sum. apply Rsum_ext. intros jp Hj. f_equal. apply (H x jp Hx Hj). Qed.

Section Force.
  Context (f : bem) (s : state).
  Context (Re : no_negative_radius (b_elec f)) (Rm : no_negative_radius (b_mag f)) (Rc : no_negative_radius (b_cur f)).
  Definition free (c : charges) : Prop := forall x jp, In x (q_items c) -> In jp (snd x) -> off_ring (snd jp) s.
  Lemma positive_fields c : free c -> 0 < eval rho2 s -> positive (ring_sum e_dr1 c) s /\ positive (ring_sum e_dz1 c) s /\ positive (ring_sum e_cr c) s /\ positive (ring_sum e_cz c) s /\ positive irad s.
  Proof.
    intros H P. split; [|split; [|split; [|split]]]; try (apply ring_sum_positive; intros x jp Hx Hj; specialize (H x jp Hx Hj)).
    - apply positive_dr1; exact H.
    - apply positive_dz1; exact H.
    - apply positive_cr; exact H.
    - apply positive_cz; exact H.
    - split; [exact P|]. cbn. tauto.
  Qed.
  Lemma field_radial_exprs c : free c -> MIN_DISTANCE_AXIS <= norm_2d (vx (s_pos s)) (vy (s_pos s)) ->
    field_radial (s_pos s) c = V3 (eval (along_x (neg (ring_sum e_dr1 c))) s) (eval (along_y (neg (ring_sum e_dr1 c))) s) (eval (neg (ring_sum e_dz1 c)) s).
  Proof.
    intros H HM. unfold field_radial, from_cylinder. destruct (Rle_dec _ _) as [_|N]; [|contradiction]. unfold along_x, along_y, neg, times. cbn [eval]. fold (eval irad s). rewrite !eval_ring_sum, eval_irad.
    rewrite (evaluate_same (fun q => eval (e_dr1 q) s) (fun q => dr1_potential_radial_ring (norm_2d (vx (s_pos s)) (vy (s_pos s))) (vz (s_pos s)) (vx q) (vz q))) by (intros x jp Hx Hj; apply eval_dr1; [exact (H x jp Hx Hj)|exact HM]).
    rewrite (evaluate_same (fun q => eval (e_dz1 q) s) (fun q => dz1_potential_radial_ring (norm_2d (vx (s_pos s)) (vy (s_pos s))) (vz (s_pos s)) (vx q) (vz q))) by (intros x jp Hx Hj; apply eval_dz1; exact (H x jp Hx Hj)).
    apply vec_eq; cbn [vx vy vz comp]; unfold Rdiv; ring.
  Qed.
  Lemma current_exprs c : free c -> MIN_DISTANCE_AXIS <= norm_2d (vx (s_pos s)) (vy (s_pos s)) ->
    current_field (s_pos s) c = V3 (eval (along_x (ring_sum e_cr c)) s) (eval (along_y (ring_sum e_cr c)) s) (eval (ring_sum e_cz c) s).
  Proof.
    intros H HM. unfold current_field, from_cylinder. destruct (Rle_dec _ _) as [_|N]; [|contradiction]. unfold along_x, along_y. cbn [eval]. fold (eval irad s). rewrite !eval_ring_sum, eval_irad.
    rewrite (evaluate_same (fun q => eval (e_cr q) s) (fun q => fst (current_field_radial_ring (norm_2d (vx (s_pos s)) (vy (s_pos s))) (vz (s_pos s)) (vx q) (vz q)))) by (intros x jp Hx Hj; rewrite eval_current; [reflexivity|exact (H x jp Hx Hj)|exact HM]).
    rewrite (evaluate_same (fun q => eval (e_cz q) s) (fun q => snd (current_field_radial_ring (norm_2d (vx (s_pos s)) (vy (s_pos s))) (vz (s_pos s)) (vx q) (vz q)))) by (intros x jp Hx Hj; rewrite eval_current; [reflexivity|exact (H x jp Hx Hj)|exact HM]).
    apply vec_eq; cbn [vx vy vz comp]; unfold Rdiv; ring.
  Qed.
  Lemma norm_rho2 : 0 < eval (EAdd rho2 (EConst (- (MIN_DISTANCE_AXIS * MIN_DISTANCE_AXIS)))) s <-> MIN_DISTANCE_AXIS < norm_2d (vx (s_pos s)) (vy (s_pos s)).
  Proof.
    cbn [eval]. fold (eval rho2 s). rewrite eval_rho2. set (x := vx (s_pos s)). set (y := vy (s_pos s)). assert (M : 0 < MIN_DISTANCE_AXIS) by (unfold MIN_DISTANCE_AXIS; lra).
    assert (Q : norm_2d x y * norm_2d x y = x * x + y * y) by (unfold norm_2d; apply sqrt_sqrt; nra). assert (P : 0 <= norm_2d x y) by (unfold norm_2d; apply sqrt_pos). rewrite <- Q. split; intros H; nra.
  Qed.
  Lemma guard_free c : no_negative_radius c -> 0 < eval rho2 s -> positive (ring_guard c) s -> free c.
  Proof. intros R P H x jp Hx Hj. split; [apply (R x jp Hx Hj)|]. split; [exact P|]. apply (positive_ring_sum _ _ _ x jp H Hx Hj). Qed.
  Lemma guard_force : b_class f = FieldRadialBEM -> positive (guard f) s ->
    tracer_field f s = Ok (V3 (eval (radial_x f) s) (eval (radial_y f) s) (eval (radial_z f) s)) /\ positive (radial_x f) s /\ positive (radial_y f) s /\ positive (radial_z f) s.
  Proof.
    intros C (G1 & G2 & Ge & Gm & Gc). destruct G1 as [(P & _) (HM & _)]. apply norm_rho2 in HM. apply Rlt_le in HM.
    pose proof (guard_free _ Re P Ge) as Fe. pose proof (guard_free _ Rm P Gm) as Fm. pose proof (guard_free _ Rc P Gc) as Fc.
    destruct (positive_fields _ Fe P) as (A1 & A2 & A3 & A4 & A5). destruct (positive_fields _ Fm P) as (B1 & B2 & B3 & B4 & _). destruct (positive_fields _ Fc P) as (C1 & C2 & C3 & C4 & _).
    split; [|split; [|split]]; [|unfold radial_x, radial_y, radial_z, cross_expr, magnet_x, magnet_y, magnet_z, along_x, along_y; parts..].
    unfold tracer_field. rewrite C. unfold field_radial_traceable.
    assert (I : match b_bounds f with None => true | Some (lo, hi) => ltb (vx lo) (vx (s_pos s)) && ltb (vx (s_pos s)) (vx hi) && ltb (vy lo) (vy (s_pos s)) && ltb (vy (s_pos s)) (vy hi) end = true).
    { unfold bounds_guard in G2. destruct (b_bounds f) as [[lo hi]|]; [|reflexivity]. unfold between, neg, times in G2. cbn [positive eval comp] in G2. unfold ltb.
      repeat match goal with H : _ /\ _ |- _ => destruct H end.
      repeat match goal with |- context [Rlt_dec ?a ?b] => destruct (Rlt_dec a b); [|lra] end. reflexivity. }
    rewrite I. f_equal. rewrite (field_radial_exprs _ Fe HM), (field_radial_exprs _ Fm HM), (current_exprs _ Fc HM).
    unfold radial_x, radial_y, radial_z, cross_expr, magnet_x, magnet_y, magnet_z, times, combine_elec_magnetic_field. cbn [eval].
    generalize (eval (along_x (ring_sum e_cr (b_cur f))) s) (eval (along_y (ring_sum e_cr (b_cur f))) s) (eval (ring_sum e_cz (b_cur f)) s).
    generalize (eval (along_x (neg (ring_sum e_dr1 (b_mag f)))) s) (eval (along_y (neg (ring_sum e_dr1 (b_mag f)))) s) (eval (neg (ring_sum e_dz1 (b_mag f))) s).
    generalize (eval (along_x (neg (ring_sum e_dr1 (b_elec f)))) s) (eval (along_y (neg (ring_sum e_dr1 (b_elec f)))) s) (eval (neg (ring_sum e_dz1 (b_elec f))) s).
    intros a0 a1 a2 b0 b1 b2 c0 c1 c2. generalize MU_0. intros mu. apply vec_eq; cbn; ring.
  Qed.
  (** off the rings the guard has a value *)
  Lemma off_free c : off_rings c (s_pos s) -> 0 < eval rho2 s -> free c /\ positive (ring_guard c) s.
  Proof.
    intros H P. assert (F : free c).
    { intros x jp Hx Hj. destruct (H x jp Hx Hj) as [R N]. split; [exact R|]. split; [exact P|]. set (q := snd jp) in *. unfold e_D, sq, e_dr, e_dz, neg, times. cbn [eval comp]. fold (eval rad s). rewrite (eval_rad s P).
      set (r := norm_2d _ _) in *. set (z := vz (s_pos s)) in *. 
      destruct (Req_dec (vz q) z) as [E1|N1]; [|pose proof (Rsqr_pos_lt (vz q + -1 * z) ltac:(lra)); pose proof (Rle_0_sqr (vx q + -1 * r)); unfold Rsqr in *; lra].
      destruct (Req_dec (vx q) r) as [E2|N2]; [|pose proof (Rsqr_pos_lt (vx q + -1 * r) ltac:(lra)); pose proof (Rle_0_sqr (vz q + -1 * z)); unfold Rsqr in *; lra]. exfalso. apply N. rewrite E1, E2. reflexivity. }
    split; [exact F|]. unfold ring_guard. apply ring_sum_positive. intros x jp Hx Hj. specialize (F x jp Hx Hj). split; [apply F|]. apply positive_D. exact F.
  Qed.
  Lemma in_field_guard : in_field f (s_pos s) -> off_rings (b_elec f) (s_pos s) -> off_rings (b_mag f) (s_pos s) -> off_rings (b_cur f) (s_pos s) -> positive (guard f) s.
  Proof.
    intros [HM HB] Oe Om Oc. assert (P : 0 < eval rho2 s). { apply norm_rho2 in HM. cbn [eval] in HM. fold (eval rho2 s) in HM. unfold MIN_DISTANCE_AXIS in HM. lra. }
    destruct (off_free _ Oe P) as [_ Ge]. destruct (off_free _ Om P) as [_ Gm]. destruct (off_free _ Oc P) as [_ Gc]. assert (PR : positive rho2 s) by (cbn; tauto).
    split; [split; (split; [first [exact P|apply norm_rho2; exact HM]|first [exact PR|split; [exact PR|exact I]]])|]. split; [|split; [exact Ge|split; [exact Gm|exact Gc]]].
    unfold bounds_guard. destruct (b_bounds f) as [[lo hi]|]; [|exact I]. unfold between, neg, times. cbn [positive eval comp]. repeat split; lra.
  Qed.
End Force.

Theorem radial_smooth f u T : b_class f = FieldRadialBEM -> 0 <= T -> solves (tracer_field f) T u ->
  (forall t, 0 <= t <= T -> in_field f (s_pos (u t)) /\ off_rings (b_elec f) (s_pos (u t)) /\ off_rings (b_mag f) (s_pos (u t)) /\ off_rings (b_cur f) (s_pos (u t))) ->
  exists rho M D1 D2 D3 D4, smooth_along (tracer_field f) u T rho M D1 D2 D3 D4.
Proof.
  intros C HT S Off. assert (Hu : forall t, 0 <= t <= T -> exists g, has_derivative u t g) by (intros t Ht; destruct (S t Ht) as (g & _ & Hg); exists g; exact Hg).
  destruct (Off 0 ltac:(lra)) as (_ & O1 & O2 & O3).
  assert (Re : no_negative_radius (b_elec f)) by (intros x jp Hx Hj; apply (O1 x jp Hx Hj)). assert (Rm : no_negative_radius (b_mag f)) by (intros x jp Hx Hj; apply (O2 x jp Hx Hj)). assert (Rc : no_negative_radius (b_cur f)) by (intros x jp Hx Hj; apply (O3 x jp Hx Hj)).
  destruct (tube_exists u T HT Hu (EAdd (guard f) (EAdd (radial_x f) (EAdd (radial_y f) (radial_z f))))) as (rho & c & Hr & Hc & Tu).
  { intros t Ht. destruct (Off t Ht) as (A & B1 & B2 & B3). pose proof (in_field_guard f (u t) A B1 B2 B3) as G. destruct (guard_force f (u t) Re Rm Rc C G) as (_ & P1 & P2 & P3).
    split; [exact G|]. split; [exact P1|]. split; [exact P2|exact P3]. }
  assert (N : force_near (tracer_field f) u T rho c (radial_x f) (radial_y f) (radial_z f)).
  { intros t d Ht Hd. destruct (Tu t d Ht Hd) as (G & P1 & P2 & P3). apply (regular_positive c) in G; [|exact Hc]. destruct (guard_force f (sadd (u t) d) Re Rm Rc C G) as (E & _). auto. }
  destruct (smooth_of_force (tracer_field f) u T rho c _ _ _ Hc Hr HT N S) as (M & SM). exists rho, M. do 4 eexists. exact SM.
Qed.
