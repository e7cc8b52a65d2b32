(** Facts about fields of effective point charges. *)
From Coq Require Import Reals Lra.
From Verif Require Import Base BaseFacts Vec GeomModel OutwardFacts FieldModel.
Local Open Scope R_scope.

Lemma rule_eqb_eq a b : rule_eqb a b = true -> a = b.
Proof. destruct a, b; simpl; congruence. Qed.
Lemma same_sources_eq a b : same_sources a b = true -> a = b.
Proof. unfold same_sources. destruct (list_eq_dec (list_eq_dec jac_pos_eq_dec) a b); [auto|discriminate]. Qed.

Lemma charges_add_evaluate a b c K : charges_add a b = Ok c -> evaluate K c = evaluate K a + evaluate K b.
Proof.
  unfold charges_add. destruct (rule_eqb (q_rule a) (q_rule b)); [|discriminate].
  destruct (same_sources (map snd (q_items a)) (map snd (q_items b))) eqn:Es; cbn [andb]; intros H; injection H as <-; unfold evaluate; cbn [q_items].
  - apply same_sources_eq in Es. revert Es. generalize (q_items b). induction (q_items a) as [|[q s] l IH]; intros [|[q' s'] m] E; simpl in *; try discriminate; [lra|].
    injection E as <- E. rewrite IH by exact E. lra.
  - rewrite map_app, Rsum_app. reflexivity.
Qed.
Lemma charges_add_defined a b : q_rule a = q_rule b -> exists c, charges_add a b = Ok c /\ q_rule c = q_rule a.
Proof.
  intros E. unfold charges_add. rewrite E. replace (rule_eqb (q_rule b) (q_rule b)) with true by (destruct (q_rule b); reflexivity). cbn [andb].
  destruct (same_sources _ _); eexists; split; reflexivity.
Qed.
Lemma charges_mul_evaluate k a K : evaluate K (charges_mul k a) = k * evaluate K a.
Proof. unfold evaluate, charges_mul. cbn [q_items]. rewrite map_map, <- Rsum_scal. apply Rsum_ext. intros x _. cbn [fst snd]. ring. Qed.
Lemma charges_add_empty a b c : charges_add a b = Ok c -> q_items a = [] -> q_items c = q_items b.
Proof.
  unfold charges_add. destruct (rule_eqb (q_rule a) (q_rule b)); [|discriminate]. intros H E. rewrite E in H.
  destruct (same_sources (map snd []) (map snd (q_items b))) eqn:Es; cbn [andb] in H; injection H as <-; cbn [q_items]; [|reflexivity].
  apply same_sources_eq in Es. destruct (q_items b); [reflexivity|discriminate].
Qed.
Lemma charges_add_empty_r a b c : charges_add a b = Ok c -> q_items b = [] -> q_items c = q_items a.
Proof.
  unfold charges_add. destruct (rule_eqb (q_rule a) (q_rule b)); [|discriminate]. intros H E. rewrite E in H.
  destruct (same_sources (map snd (q_items a)) (map snd [])) eqn:Es; cbn [andb] in H; injection H as <-; cbn [q_items]; [|apply app_nil_r].
  apply same_sources_eq in Es. destruct (q_items a); [reflexivity|discriminate].
Qed.
Lemma evaluate_items K a b : q_items a = q_items b -> evaluate K a = evaluate K b.
Proof. unfold evaluate. intros ->. reflexivity. Qed.
Lemma evaluate_empty K a : q_items a = [] -> evaluate K a = 0.
Proof. unfold evaluate. intros ->. reflexivity. Qed.

(** Linear combinations of charge distributions, seen through every kernel *)
Definition superposes (c : charges) (parts : list (R * charges)) : Prop :=
  forall K, evaluate K c = Rsum (map (fun wa => fst wa * evaluate K (snd wa)) parts).
Definition vsum (l : list vec3) : vec3 := fold_right vadd vzero l.
Lemma vsum_coords l : vsum l = V3 (Rsum (map vx l)) (Rsum (map vy l)) (Rsum (map vz l)).
Proof. induction l as [|a l IH]; [reflexivity|]. simpl. rewrite IH. reflexivity. Qed.

Lemma superposes_potential_radial c parts p : superposes c parts ->
  potential_radial p c = Rsum (map (fun wa => fst wa * potential_radial p (snd wa)) parts).
Proof. intros H. apply H. Qed.
Lemma superposes_potential_3d c parts p : superposes c parts ->
  potential_3d p c = Rsum (map (fun wa => fst wa * potential_3d p (snd wa)) parts).
Proof. intros H. apply H. Qed.
Lemma Rsum_opp {A} (f : A -> R) l : Rsum (map (fun x => - f x) l) = - Rsum (map f l).
Proof. induction l as [|a l IH]; simpl; [lra|]. rewrite IH. lra. Qed.
Lemma superposes_field_3d c parts p : superposes c parts ->
  field_3d p c = vsum (map (fun wa => vscale (fst wa) (field_3d p (snd wa))) parts).
Proof.
  intros H. rewrite vsum_coords, !map_map. unfold field_3d. cbn [vx vy vz vscale].
  rewrite !(H _). f_equal; rewrite <- Rsum_opp; apply Rsum_ext; intros wa _; ring.
Qed.
Lemma from_cylinder_linear {A} p (Er Ez : A -> R) (w : A -> R) l :
  from_cylinder p (Rsum (map (fun a => w a * Er a) l)) (Rsum (map (fun a => w a * Ez a) l)) =
  vsum (map (fun a => vscale (w a) (from_cylinder p (Er a) (Ez a))) l).
Proof.
  rewrite vsum_coords, !map_map. unfold from_cylinder. destruct (Rle_dec _ _); cbn [vx vy vz vscale].
  - f_equal; rewrite <- Rsum_scal; apply Rsum_ext; intros a _; ring.
  - f_equal; symmetry; (erewrite Rsum_ext; [|intros a _; rewrite Rmult_0_r; reflexivity]); clear; induction l as [|a l IH]; simpl; lra.
Qed.
Lemma superposes_field_radial c parts p : superposes c parts ->
  field_radial p c = vsum (map (fun wa => vscale (fst wa) (field_radial p (snd wa))) parts).
Proof.
  intros H. unfold field_radial. rewrite !(H _), <- !Rsum_opp.
  rewrite (Rsum_ext (fun x : R * charges => - (fst x * evaluate (fun q : vec3 => dr1_potential_radial_ring (norm_2d (vx p) (vy p)) (vz p) (vx q) (vz q)) (snd x)))
            (fun x => fst x * - evaluate (fun q : vec3 => dr1_potential_radial_ring (norm_2d (vx p) (vy p)) (vz p) (vx q) (vz q)) (snd x))) by (intros; ring).
  rewrite (Rsum_ext (fun x : R * charges => - (fst x * evaluate (fun q : vec3 => dz1_potential_radial_ring (norm_2d (vx p) (vy p)) (vz p) (vx q) (vz q)) (snd x)))
            (fun x => fst x * - evaluate (fun q : vec3 => dz1_potential_radial_ring (norm_2d (vx p) (vy p)) (vz p) (vx q) (vz q)) (snd x))) by (intros; ring).
  exact (from_cylinder_linear p (fun wa : R * charges => - evaluate (fun q : vec3 => dr1_potential_radial_ring (norm_2d (vx p) (vy p)) (vz p) (vx q) (vz q)) (snd wa))
          (fun wa => - evaluate (fun q : vec3 => dz1_potential_radial_ring (norm_2d (vx p) (vy p)) (vz p) (vx q) (vz q)) (snd wa)) fst parts).
Qed.
Lemma superposes_current_field c parts p : superposes c parts ->
  current_field p c = vsum (map (fun wa => vscale (fst wa) (current_field p (snd wa))) parts).
Proof.
  intros H. unfold current_field. rewrite !(H _).
  exact (from_cylinder_linear p (fun wa : R * charges => evaluate (fun q : vec3 => fst (current_field_radial_ring (norm_2d (vx p) (vy p)) (vz p) (vx q) (vz q))) (snd wa))
          (fun wa => evaluate (fun q : vec3 => snd (current_field_radial_ring (norm_2d (vx p) (vy p)) (vz p) (vx q) (vz q))) (snd wa)) fst parts).
Qed.
Lemma superposes_add a b c : charges_add a b = Ok c -> superposes c [(1, a); (1, b)].
Proof. intros H K. simpl. rewrite (charges_add_evaluate _ _ _ K H). ring. Qed.
Lemma superposes_mul k a : superposes (charges_mul k a) [(k, a)].
Proof. intros K. simpl. rewrite charges_mul_evaluate. ring. Qed.
