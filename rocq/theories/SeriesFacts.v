(** Facts about axial derivatives, interpolation and the radial series. *)
From Coq Require Import Reals ZArith Lra Lia Psatz.
From Coquelicot Require Import Coquelicot.
From Verif Require Import Base BaseFacts Vec GeomModel OutwardFacts FieldModel FieldFacts SeriesModel.
Local Open Scope R_scope.

(** ** Axial derivatives *)
Ltac req := match goal with |- @eq _ ?a ?b => change (@eq R a b) end.
Lemma is_derive_eq (f : R -> R) (x l l' : R) : is_derive f x l -> l = l' -> is_derive f x l'.
Proof. intros H <-. exact H. Qed.
Lemma norm_2d_sqr x y : norm_2d x y ^ 2 = x ^ 2 + y ^ 2.
Proof. unfold norm_2d. rewrite <- Rsqr_pow2, Rsqr_sqrt; [ring|]. nra. Qed.
Lemma norm_2d_pos x y : y <> 0 -> 0 < norm_2d x y.
Proof. intros H. unfold norm_2d. apply sqrt_lt_R0. assert (0 < y * y) by nra. nra. Qed.
Lemma norm_2d_derive u r : r <> 0 -> is_derive (fun u => norm_2d u r) u (u / norm_2d u r).
Proof.
  intros H. unfold norm_2d. assert (0 < u * u + r * r) by nra. auto_derive; [exact H0|]. field. apply Rgt_not_eq. apply sqrt_lt_R0. exact H0.
Qed.
Definition ring_D (r : R) (n : nat) (u : R) : R := fst (ring_pair n u (norm_2d u r)).
Lemma ring_pair_snd n u R0 : snd (ring_pair n u R0) = fst (ring_pair (S n) u R0).
Proof. cbn [ring_pair]. destruct (ring_pair n u R0) as [a b]. reflexivity. Qed.
Lemma ring_D_SS r n u : ring_D r (S (S n)) u = -1 / norm_2d u r ^ 2 * ((2 * INR (S n) + 1) * u * ring_D r (S n) u + INR (S n) ^ 2 * ring_D r n u).
Proof.
  unfold ring_D. cbn [ring_pair]. destruct (ring_pair n u (norm_2d u r)) as [a b]. reflexivity.
Qed.
Lemma ring_D_derive r : r <> 0 -> forall n (u : R), is_derive (ring_D r n) u (ring_D r (S n) u).
Proof.
  intros Hr. assert (P : forall u : R, 0 < norm_2d u r) by (intros; apply norm_2d_pos; exact Hr).
  assert (D0 : forall u : R, is_derive (ring_D r 0) u (ring_D r 1 u)).
  { intros u. unfold ring_D. cbn [ring_pair fst]. specialize (P u).
    pose proof (is_derive_inv (fun u => norm_2d u r) u _ (norm_2d_derive u r Hr) (Rgt_not_eq _ _ P)) as Q.
    eapply is_derive_ext; [|eapply is_derive_eq; [exact Q|]]; [intros t; cbn; unfold Rdiv; ring|]. req. cbv beta. field. lra. }
  assert (D1 : forall u : R, is_derive (ring_D r 1) u (ring_D r 2 u)).
  { intros u. unfold ring_D. cbn [ring_pair fst]. specialize (P u).
    pose proof (is_derive_pow (fun u => norm_2d u r) 3 u _ (norm_2d_derive u r Hr)) as Q.
    assert (N3 : norm_2d u r ^ 3 <> 0) by (apply pow_nonzero; lra).
    pose proof (is_derive_div (fun u : R => - u) (fun u => norm_2d u r ^ 3) u (-1) _ ltac:(auto_derive; [exact I|ring]) Q N3) as Q2.
    eapply is_derive_eq; [exact Q2|]. req. cbn [pred INR]. field. lra. }
  assert (S2 : forall n, (forall u : R, is_derive (ring_D r n) u (ring_D r (S n) u)) /\ (forall u : R, is_derive (ring_D r (S n)) u (ring_D r (S (S n)) u))).
  { induction n as [|n [IH1 IH2]]; [split; assumption|]. split; [exact IH2|]. intros u.
    eapply is_derive_ext; [intros t; symmetry; apply ring_D_SS|]. rewrite ring_D_SS.
    specialize (IH1 u). specialize (IH2 u). pose proof (P u) as Pu. assert (Nn : norm_2d u r <> 0) by lra.
    assert (E := ring_D_SS r n u). set (k := INR (S n)) in *. assert (Ek : INR (S (S n)) = k + 1) by (unfold k; rewrite !S_INR; ring). rewrite Ek. clearbody k.
    set (a := ring_D r n u) in *. set (b := ring_D r (S n) u) in *. set (c := ring_D r (S (S n)) u) in *.
    pose proof (is_derive_pow (fun u => norm_2d u r) 2 u _ (norm_2d_derive u r Hr)) as Qn.
    assert (N2 : norm_2d u r ^ 2 <> 0) by (apply pow_nonzero; exact Nn).
    pose proof (is_derive_inv (fun u => norm_2d u r ^ 2) u _ Qn N2) as Qi.
    assert (Qs : is_derive (fun t => (2 * k + 1) * t * ring_D r (S n) t + k ^ 2 * ring_D r n t) u ((2 * k + 1) * b + (2 * k + 1) * u * c + k ^ 2 * b)).
    { eapply is_derive_eq; [apply (is_derive_plus (fun t => (2 * k + 1) * t * ring_D r (S n) t) (fun t => k ^ 2 * ring_D r n t) u);
        [apply (is_derive_mult (fun t => (2 * k + 1) * t) (ring_D r (S n)) u (2 * k + 1) c); [auto_derive; [exact I|ring]|exact IH2|intros; apply Rmult_comm]|
         apply (is_derive_scal (ring_D r n) u (k ^ 2) b); exact IH1]|].
      unfold plus, mult, scal; cbn; unfold mult; cbn. fold b. ring. }
    pose proof (is_derive_mult _ _ u _ _ Qi Qs ltac:(intros; apply Rmult_comm)) as Qm.
    pose proof (is_derive_scal _ u (-1) _ Qm) as Qf.
    eapply is_derive_ext; [|eapply is_derive_eq; [exact Qf|]].
    - intros t. cbn. unfold mult; cbn. unfold Rdiv. ring.
    - unfold plus, mult, scal; cbn -[pow]; unfold mult; cbn -[pow].
      assert (E2 : (2 * k + 1) * u * b + k ^ 2 * a = - norm_2d u r ^ 2 * c) by (rewrite E; field; exact Nn).
      req. fold a b. rewrite E2. cbn [pred INR pow]. field. exact Nn. }
  intros n. apply (S2 n).
Qed.
Definition current_D (r : R) (n : nat) (u : R) : R := fst (current_pair n u r (norm_2d u r)).
Lemma current_D_SS r n u : current_D r (S (S n)) u =
  - (2 * INR (S (S n)) - 1) * (u / norm_2d u r) / norm_2d u r * current_D r (S n) u
  - (INR (S (S n)) * INR (S (S n)) - 2 * INR (S (S n))) / (norm_2d u r * norm_2d u r) * current_D r n u.
Proof. unfold current_D. cbn [current_pair]. destruct (current_pair n u r (norm_2d u r)) as [a b]. reflexivity. Qed.
Lemma current_D_0 r u : current_D r 0 u = - u / (2 * norm_2d u r).
Proof. reflexivity. Qed.
Lemma current_D_1 r u : current_D r 1 u = - r * r / (2 * norm_2d u r ^ 3).
Proof.
  unfold current_D. cbn [current_pair fst]. change (sqrt (u * u + r * r)) with (norm_2d u r). f_equal. f_equal.
  replace (u * u + r * r) with (norm_2d u r ^ 2) by (rewrite norm_2d_sqr; ring). ring.
Qed.
Lemma current_D_derive r : r <> 0 -> forall n (u : R), is_derive (current_D r n) u (current_D r (S n) u).
Proof.
  intros Hr. assert (P : forall u : R, 0 < norm_2d u r) by (intros; apply norm_2d_pos; exact Hr).
  assert (D0 : forall u : R, is_derive (current_D r 0) u (current_D r 1 u)).
  { intros u. eapply is_derive_ext; [intros t; symmetry; apply current_D_0|]. rewrite current_D_1. specialize (P u).
    pose proof (is_derive_scal (fun u => norm_2d u r) u 2 _ (norm_2d_derive u r Hr)) as Q.
    pose proof (is_derive_div (fun u : R => - u) (fun u => 2 * norm_2d u r) u (-1) _ ltac:(auto_derive; [exact I|ring]) Q ltac:(lra)) as Q2.
    eapply is_derive_eq; [exact Q2|]. req. unfold scal; cbn; unfold mult; cbn. replace (- r * r) with (u ^ 2 - norm_2d u r ^ 2) by (rewrite norm_2d_sqr; ring).
    field. lra. }
  assert (D1 : forall u : R, is_derive (current_D r 1) u (current_D r 2 u)).
  { intros u. eapply is_derive_ext; [intros t; symmetry; apply current_D_1|]. rewrite current_D_SS, current_D_1. specialize (P u).
    pose proof (is_derive_pow (fun u => norm_2d u r) 3 u _ (norm_2d_derive u r Hr)) as Q.
    assert (N3 : norm_2d u r ^ 3 <> 0) by (apply pow_nonzero; lra).
    pose proof (is_derive_inv (fun u => norm_2d u r ^ 3) u _ Q N3) as Q2.
    pose proof (is_derive_scal _ u (- r * r / 2) _ Q2) as Q3.
    eapply is_derive_ext; [|eapply is_derive_eq; [exact Q3|]].
    - intros t. cbn -[pow]. unfold mult; cbn -[pow]. assert (N : norm_2d t r <> 0) by (apply Rgt_not_eq; apply norm_2d_pos; exact Hr). req. field. exact N.
    - req. unfold scal; cbn -[pow]; unfold mult; cbn -[pow]. cbn [pred]. field. change (sqrt (u * u + r * r)) with (norm_2d u r). lra. }
  assert (S2 : forall n, (forall u : R, is_derive (current_D r n) u (current_D r (S n) u)) /\ (forall u : R, is_derive (current_D r (S n)) u (current_D r (S (S n)) u))).
  { induction n as [|n [IH1 IH2]]; [split; assumption|]. split; [exact IH2|]. intros u.
    set (k := INR (S (S n))).
    eapply is_derive_ext with (f := fun t => -1 / norm_2d t r ^ 2 * ((2 * k - 1) * t * current_D r (S n) t + (k * k - 2 * k) * current_D r n t)).
    { intros t. rewrite (current_D_SS r n t). assert (N : norm_2d t r <> 0) by (apply Rgt_not_eq; apply norm_2d_pos; exact Hr). fold k. req. field. exact N. }
    rewrite current_D_SS.
    specialize (IH1 u). specialize (IH2 u). pose proof (P u) as Pu. assert (Nn : norm_2d u r <> 0) by lra.
    assert (E := current_D_SS r n u). fold k in E. assert (Ek : INR (S (S (S n))) = k + 1) by (unfold k; rewrite (S_INR (S (S n))); ring). rewrite Ek. clearbody k.
    set (a := current_D r n u) in *. set (b := current_D r (S n) u) in *. set (c := current_D r (S (S n)) u) in *.
    pose proof (is_derive_pow (fun u => norm_2d u r) 2 u _ (norm_2d_derive u r Hr)) as Qn.
    assert (N2 : norm_2d u r ^ 2 <> 0) by (apply pow_nonzero; exact Nn).
    pose proof (is_derive_inv (fun u => norm_2d u r ^ 2) u _ Qn N2) as Qi.
    assert (Qs : is_derive (fun t => (2 * k - 1) * t * current_D r (S n) t + (k * k - 2 * k) * current_D r n t) u ((2 * k - 1) * b + (2 * k - 1) * u * c + (k * k - 2 * k) * b)).
    { eapply is_derive_eq; [apply (is_derive_plus (fun t => (2 * k - 1) * t * current_D r (S n) t) (fun t => (k * k - 2 * k) * current_D r n t) u);
        [apply (is_derive_mult (fun t => (2 * k - 1) * t) (current_D r (S n)) u (2 * k - 1) c); [auto_derive; [exact I|ring]|exact IH2|intros; apply Rmult_comm]|
         apply (is_derive_scal (current_D r n) u (k * k - 2 * k) b); exact IH1]|].
      unfold plus, mult, scal; cbn; unfold mult; cbn. fold b. ring. }
    pose proof (is_derive_mult _ _ u _ _ Qi Qs ltac:(intros; apply Rmult_comm)) as Qm.
    pose proof (is_derive_scal _ u (-1) _ Qm) as Qf.
    eapply is_derive_ext; [|eapply is_derive_eq; [exact Qf|]].
    - intros t. cbn. unfold mult; cbn. unfold Rdiv. req. ring.
    - unfold plus, mult, scal; cbn -[pow]; unfold mult; cbn -[pow].
      assert (E2 : (2 * k - 1) * u * b + (k * k - 2 * k) * a = - norm_2d u r ^ 2 * c) by (rewrite E; field; exact Nn).
      req. fold a b. rewrite E2. cbn [pred INR pow]. field. exact Nn. }
  intros n. apply (S2 n).
Qed.

Lemma chain_Derive_n (D : nat -> R -> R) : (forall n (x : R), is_derive (D n) x (D (S n) x)) -> forall n (x : R), Derive_n (D 0%nat) n x = D n x.
Proof.
  intros H n. induction n as [|n IH]; intros x; [reflexivity|]. cbn [Derive_n]. rewrite (Derive_ext _ (D n) x IH). apply is_derive_unique. apply H.
Qed.
Lemma chain_is_derive_n (D : nat -> R -> R) (f : R -> R) : (forall n (x : R), is_derive (D n) x (D (S n) x)) -> (forall x, f x = D 0%nat x) ->
  forall n (x : R), is_derive_n f n x (D n x).
Proof.
  intros H E n x. destruct n as [|n]; [apply E|]. cbn. eapply is_derive_ext; [|apply H]. intros t. rewrite <- (chain_Derive_n D H n t).
  apply Derive_n_ext. intros s. symmetry. apply E.
Qed.
Lemma shift_derive (f g : R -> R) (c x : R) : is_derive f (x - c) (g (x - c)) -> is_derive (fun s => f (s - c)) x (g (x - c)).
Proof.
  intros H. eapply is_derive_eq; [apply (is_derive_comp f (fun s => s - c) x _ 1 H); auto_derive; [exact I|ring]|]. unfold scal; cbn; unfold mult; cbn. ring.
Qed.
Lemma scale_chain (D : nat -> R -> R) k : (forall n (x : R), is_derive (D n) x (D (S n) x)) ->
  forall n (x : R), is_derive (fun s => k * D n s) x (k * D (S n) x).
Proof. intros H n x. apply (is_derive_scal (D n) x k _ (H n x)). Qed.
Lemma sum_chain {A} (D : A -> nat -> R -> R) (l : list A) : (forall a, In a l -> forall n (x : R), is_derive (D a n) x (D a (S n) x)) ->
  forall n (x : R), is_derive (fun s => Rsum (map (fun a => D a n s) l)) x (Rsum (map (fun a => D a (S n) x) l)).
Proof.
  induction l as [|a l IH]; intros H n x.
  - cbn. apply (@is_derive_const R_AbsRing R_NormedModule 0 x).
  - cbn [map Rsum]. apply (is_derive_plus (fun s => D a n s) (fun s => Rsum (map (fun a => D a n s) l)) x); [apply H; left; reflexivity|].
    apply IH. intros b Hb. apply H. right. exact Hb.
Qed.
Lemma ring_chain r z : r <> 0 -> forall n (x : R), is_derive (fun s => r / 2 * ring_D r n (s - z)) x (r / 2 * ring_D r (S n) (x - z)).
Proof.
  intros H. apply (scale_chain (fun n s => ring_D r n (s - z)) (r / 2)). intros n x. apply (shift_derive (ring_D r n) (ring_D r (S n)) z x). apply ring_D_derive. exact H.
Qed.
Lemma current_chain r z : r <> 0 -> forall n (x : R), is_derive (fun s => current_D r n (s - z)) x (current_D r (S n) (x - z)).
Proof. intros H n x. apply (shift_derive (current_D r n) (current_D r (S n)) z x). apply current_D_derive. exact H. Qed.
Lemma nth_arange_map {A} (f : nat -> A) N n d : (n < N)%nat -> nth n (map f (arange N)) d = f n.
Proof.
  intros H. unfold arange. rewrite (nth_indep _ d (f 0%nat)) by (rewrite map_length, seq_length; exact H). rewrite map_nth, seq_nth by exact H. f_equal.
Qed.
Lemma ring_nth z0 r z n : (n < 9)%nat -> nth n (axial_derivatives_radial_ring z0 r z) 0 = r / 2 * ring_D r n (z0 - z).
Proof. intros H. unfold axial_derivatives_radial_ring. rewrite nth_arange_map by exact H. unfold ring_D. ring. Qed.
Lemma current_nth z0 r z n : (n < 9)%nat -> nth n (current_axial_derivatives_radial_ring z0 r z) 0 = current_D r n (z0 - z).
Proof. intros H. unfold current_axial_derivatives_radial_ring. rewrite nth_arange_map by exact H. reflexivity. Qed.

(** Closed forms of the potential on the axis *)
Definition ring_potential_on_axis (z0 r z : R) : R := r / (2 * sqrt ((z0 - z) ^ 2 + r ^ 2)).
Definition current_potential_on_axis (z0 r z : R) : R := - (z0 - z) / (2 * sqrt ((z0 - z) ^ 2 + r ^ 2)).
Lemma sqrt_norm_2d u r : sqrt (u ^ 2 + r ^ 2) = norm_2d u r.
Proof. unfold norm_2d. f_equal. ring. Qed.
Lemma ring_0 z0 r z : r <> 0 -> ring_potential_on_axis z0 r z = r / 2 * ring_D r 0 (z0 - z).
Proof.
  intros H. unfold ring_potential_on_axis, ring_D. cbn [ring_pair fst]. rewrite sqrt_norm_2d. field. apply Rgt_not_eq. apply norm_2d_pos. exact H.
Qed.
Lemma current_0 z0 r z : current_potential_on_axis z0 r z = current_D r 0 (z0 - z).
Proof. unfold current_potential_on_axis. rewrite current_D_0, sqrt_norm_2d. reflexivity. Qed.

Definition off_axis (c : charges) : Prop := forall x, In x (q_items c) -> forall jp, In jp (snd x) -> vx (snd jp) <> 0.
Lemma evaluate_chain (D : nat -> R -> vec3 -> R) c : (forall q, vx q <> 0 -> forall n (x : R), is_derive (fun s => D n s q) x (D (S n) x q)) -> off_axis c ->
  forall n (x : R), is_derive (fun s => evaluate (D n s) c) x (evaluate (D (S n) x) c).
Proof.
  intros H Oc n x. unfold evaluate. apply (sum_chain (fun it n s => fst it * source_sum (D n s) (snd it))). intros it Hit.
  apply (scale_chain (fun n s => source_sum (D n s) (snd it))). unfold source_sum. apply (sum_chain (fun jp n s => fst jp * D n s (snd jp))). intros jp Hjp.
  apply (scale_chain (fun n s => D n s (snd jp))). apply H. apply (Oc it Hit jp Hjp).
Qed.
Lemma evaluate_ext K K' c : (forall x, In x (q_items c) -> forall jp, In jp (snd x) -> K (snd jp) = K' (snd jp)) -> evaluate K c = evaluate K' c.
Proof. intros H. unfold evaluate. apply Rsum_ext. intros x Hx. f_equal. unfold source_sum. apply Rsum_ext. intros jp Hjp. rewrite (H x Hx jp Hjp). reflexivity. Qed.
Lemma axial_row_nth ring z c n : (n < 9)%nat -> nth n (axial_row ring z c) 0 = evaluate (fun q => nth n (ring z (vx q) (vz q)) 0) c.
Proof. intros H. unfold axial_row. rewrite nth_arange_map by exact H. reflexivity. Qed.
Lemma axial_row_derivative c n z : off_axis c -> (n < 9)%nat ->
  is_derive_n (fun s => evaluate (fun q => ring_potential_on_axis s (vx q) (vz q)) c) n z (nth n (axial_row axial_derivatives_radial_ring z c) 0).
Proof.
  intros Oc Hn. rewrite axial_row_nth by exact Hn. rewrite (evaluate_ext _ (fun q => vx q / 2 * ring_D (vx q) n (z - vz q))).
  - apply (chain_is_derive_n (fun n s => evaluate (fun q => vx q / 2 * ring_D (vx q) n (s - vz q)) c)).
    + apply (evaluate_chain (fun n s q => vx q / 2 * ring_D (vx q) n (s - vz q))); [|exact Oc]. intros q Hq. apply (ring_chain (vx q) (vz q) Hq).
    + intros s. apply evaluate_ext. intros x Hx jp Hjp. apply ring_0. apply (Oc x Hx jp Hjp).
  - intros x Hx jp Hjp. apply ring_nth. exact Hn.
Qed.
Lemma current_row_derivative c n z : off_axis c -> (n < 9)%nat ->
  is_derive_n (fun s => evaluate (fun q => current_potential_on_axis s (vx q) (vz q)) c) n z (nth n (axial_row current_axial_derivatives_radial_ring z c) 0).
Proof.
  intros Oc Hn. rewrite axial_row_nth by exact Hn. rewrite (evaluate_ext _ (fun q => current_D (vx q) n (z - vz q))).
  - apply (chain_is_derive_n (fun n s => evaluate (fun q => current_D (vx q) n (s - vz q)) c)).
    + apply (evaluate_chain (fun n s q => current_D (vx q) n (s - vz q))); [|exact Oc]. intros q Hq. apply (current_chain (vx q) (vz q) Hq).
    + intros s. apply evaluate_ext. intros x Hx jp Hjp. apply current_0.
  - intros x Hx jp Hjp. apply current_nth. exact Hn.
Qed.
