(** The local error of a step along a solution. *)
From Coq Require Import Reals Lra Lia Psatz.
From Coquelicot Require Import Coquelicot.
From Verif Require Import Base BaseFacts Vec TracingModel TracingFacts ConvSpec ConvFacts.
Local Open Scope R_scope.

Definition fv (field : field_fun) (s : state) : state := match field s with Ok F => mkstate (s_vel s) (vscale EM F) | Err _ => szero end.
Lemma fv_rate field s g : rate field s g -> fv field s = g.
Proof. intros (F & HF & ->). unfold fv. rewrite HF. reflexivity. Qed.
Lemma accumulate_start y c : forall ks z, accumulate (sadd y z) c ks = sadd y (accumulate z c ks).
Proof.
  induction c as [|c0 c IH]; intros [|k ks] z; try reflexivity. unfold accumulate in *. cbn [combine fold_left]. rewrite <- sadd_assoc. apply IH.
Qed.
Lemma accumulate_zero y c ks : accumulate y c ks = sadd y (accumulate szero c ks).
Proof. rewrite <- (sadd_zero_r y) at 1. apply accumulate_start. Qed.
Fixpoint labs (b : list R) : R := match b with [] => 0 | x :: b => Rabs x + labs b end.
Lemma labs_pos b : 0 <= labs b.
Proof. induction b as [|x b IH]; cbn; [lra|]. pose proof (Rabs_pos x). lra. Qed.
Lemma accumulate_bound B : 0 <= B -> forall b ks z, Forall (fun k => snorm k <= B) ks -> snorm (accumulate z b ks) <= snorm z + labs b * B.
Proof.
  intros HB. induction b as [|x b IH]; intros [|k ks] z H; unfold accumulate in *; cbn [combine fold_left labs].
  - lra.
  - lra.
  - pose proof (labs_pos b). pose proof (Rabs_pos x). nra.
  - inversion H as [|? ? Hk Hks]; subst. eapply Rle_trans; [apply IH; exact Hks|]. cbn [fst snd]. pose proof (snorm_add z (sscale x k)) as P. rewrite snorm_scale in P. pose proof (Rabs_pos x). nra.
Qed.
Lemma rows_abs : Forall (fun b => labs b <= 16) [[]; B2; B3; B4; B5; B6] /\ labs CH <= 16 /\ labs CT <= 16.
Proof.
  
  unfold B2, B3, B4, B5, B6, CH, CT. split; [|split].
  1: repeat (apply Forall_cons; [|]); [..|apply Forall_nil].
  all: cbn [labs]; repeat match goal with |- context [Rabs ?x] => first [rewrite (Rabs_pos_eq x) by lra | rewrite (Rabs_left1 x) by lra] end; lra.
Qed.

(** A bound on the derivative bounds the increase. *)
Lemma mvt_real (f f' : R -> R) h B : 0 <= h -> f 0 = 0 -> (forall s, 0 <= s <= h -> is_derive f s (f' s)) -> (forall s, 0 < s < h -> Rabs (f' s) <= B) -> Rabs (f h) <= B * h.
Proof.
  intros Hh H0 D Hb. destruct (Rle_lt_or_eq_dec 0 h Hh) as [P|<-]; [|rewrite H0, Rabs_R0; lra].
  destruct (MVT_cor2 f f' 0 h P) as (c & E & Hc); [intros; apply is_derive_Reals; apply D; assumption|].
  rewrite H0, !Rminus_0_r in E. rewrite E, Rabs_mult, (Rabs_pos_eq h) by lra. apply Rmult_le_compat_r; [lra|]. apply Hb. exact Hc.
Qed.
Lemma mvt_state (w w' : R -> state) h B : 0 <= h -> w 0 = szero -> (forall s, 0 <= s <= h -> has_derivative w s (w' s)) -> (forall s, 0 < s < h -> snorm (w' s) <= B) ->
  snorm (w h) <= 6 * B * h.
Proof.
  intros Hh H0 D Hb.
  assert (Q : forall p : state -> R, (forall s, Rabs (p s) <= snorm s) -> p szero = 0 -> (forall s, 0 <= s <= h -> is_derive (fun s => p (w s)) s (p (w' s))) -> Rabs (p (w h)) <= B * h).
  { intros p Hp P0 Dp. apply (mvt_real (fun s => p (w s)) (fun s => p (w' s)) h B Hh); [rewrite H0; exact P0|exact Dp|]. intros s Hs. eapply Rle_trans; [apply Hp|]. apply Hb. exact Hs. }
  assert (A : forall s x, In x [Rabs (vx (s_pos s)); Rabs (vy (s_pos s)); Rabs (vz (s_pos s)); Rabs (vx (s_vel s)); Rabs (vy (s_vel s)); Rabs (vz (s_vel s))] -> x <= snorm s).
  { intros s x Hx. unfold snorm. pose proof (Rabs_pos (vx (s_pos s))). pose proof (Rabs_pos (vy (s_pos s))). pose proof (Rabs_pos (vz (s_pos s))). pose proof (Rabs_pos (vx (s_vel s))). pose proof (Rabs_pos (vy (s_vel s))). pose proof (Rabs_pos (vz (s_vel s))).
    cbn in Hx. repeat destruct Hx as [<-|Hx]; try lra. }
  pose proof (Q (fun s => vx (s_pos s)) (fun s => A s _ (or_introl eq_refl)) eq_refl (fun s Hs => proj1 (proj1 (D s Hs)))) as Q1.
  pose proof (Q (fun s => vy (s_pos s)) (fun s => A s _ (or_intror (or_introl eq_refl))) eq_refl (fun s Hs => proj1 (proj2 (proj1 (D s Hs))))) as Q2.
  pose proof (Q (fun s => vz (s_pos s)) (fun s => A s _ (or_intror (or_intror (or_introl eq_refl)))) eq_refl (fun s Hs => proj2 (proj2 (proj1 (D s Hs))))) as Q3.
  pose proof (Q (fun s => vx (s_vel s)) (fun s => A s _ (or_intror (or_intror (or_intror (or_introl eq_refl))))) eq_refl (fun s Hs => proj1 (proj2 (D s Hs)))) as Q4.
  pose proof (Q (fun s => vy (s_vel s)) (fun s => A s _ (or_intror (or_intror (or_intror (or_intror (or_introl eq_refl)))))) eq_refl (fun s Hs => proj1 (proj2 (proj2 (D s Hs))))) as Q5.
  pose proof (Q (fun s => vz (s_vel s)) (fun s => A s _ (or_intror (or_intror (or_intror (or_intror (or_intror (or_introl eq_refl))))))) eq_refl (fun s Hs => proj2 (proj2 (proj2 (D s Hs))))) as Q6.
  unfold snorm. cbv beta in *. lra.
Qed.
Lemma has_derivative_add w v t g k : has_derivative w t g -> has_derivative v t k -> has_derivative (fun s => sadd (w s) (v s)) t (sadd g k).
Proof.
  intros ((A1 & A2 & A3) & A4 & A5 & A6) ((C1 & C2 & C3) & C4 & C5 & C6). split; (split; [|split]); cbn; first
    [apply (is_derive_plus _ _ _ _ _ A1 C1)|apply (is_derive_plus _ _ _ _ _ A2 C2)|apply (is_derive_plus _ _ _ _ _ A3 C3)|apply (is_derive_plus _ _ _ _ _ A4 C4)|apply (is_derive_plus _ _ _ _ _ A5 C5)|apply (is_derive_plus _ _ _ _ _ A6 C6)].
Qed.
Lemma has_derivative_const a t : has_derivative (fun _ => a) t szero.
Proof. split; (split; [|split]); cbn; apply (is_derive_const (V := R_NormedModule)). Qed.
Lemma has_derivative_scaled (x : R -> R) x' a t : is_derive x t x' -> has_derivative (fun s => sscale (x s) a) t (sscale x' a).
Proof. intros D. split; (split; [|split]); cbn; apply (is_derive_scal_l (V := R_NormedModule)); exact D. Qed.
Lemma has_derivative_scale k w t g : has_derivative w t g -> has_derivative (fun s => sscale k (w s)) t (sscale k g).
Proof. intros ((A1 & A2 & A3) & A4 & A5 & A6). split; (split; [|split]); cbn; apply is_derive_scal; assumption. Qed.
Lemma has_derivative_shift u t s g : has_derivative u (t + s) g -> has_derivative (fun s => u (t + s)) s g.
Proof.
  assert (Q : forall (f : R -> R) l, is_derive f (t + s) l -> is_derive (fun s => f (t + s)) s l).
  { intros f l D. apply (is_derive_ext (fun s => f (s + t))); [intros; f_equal; ring|]. pose proof (is_derive_comp f (fun s => s + t) s l 1) as C.
    replace l with (scal 1 l) by (unfold scal; cbn; unfold mult; cbn; ring). apply C; [rewrite Rplus_comm; exact D|]. auto_derive; [exact I|ring]. }
  intros ((A1 & A2 & A3) & A4 & A5 & A6). split; (split; [|split]); apply (Q (fun t => _ (_ (u t)))); assumption.
Qed.

(** coefficients of combinations of stages *)
Definition ccomb (b : list R) (cs : list (nat -> R)) : nat -> R := fun i => fold_right (fun bc acc => fst bc * snd bc i + acc) 0 (combine b cs).
Fixpoint kc (bs : list (list R)) (cs : list (nat -> R)) : list (nat -> R) :=
  match bs with [] => cs | b :: bs => kc bs (cs ++ [G (ccomb b cs)]) end.
(** the coefficients of the exact solution *)
Definition exact (i : nat) : R :=
  match i with 0 => 1 | 1 => / 2 | 2 | 3 => / 6 | 4 => / 24 | 5 => / 8 | 6 | 7 => / 24 | 8 => / 120 | 9 => / 20 | 10 | 11 => / 30 | 12 => / 40 | 13 => / 120 | 14 => / 40 | _ => / 120 end.
Lemma exact_G i : INR (ord i) * exact i = G exact i.
Proof. do 17 (destruct i as [|i]; [cbn [ord exact G INR]; lra|]). cbn [ord exact G INR]. lra. Qed.
Ltac coefficient := intros i; do 17 (destruct i as [|i]; [cbv [ccomb kc B2 B3 B4 B5 B6 CH CT app combine fold_right fst snd G exact]; lra|]); intros; lia.
Lemma CH_coefficients : forall i, (i < 17)%nat -> ccomb CH (kc [[]; B2; B3; B4; B5; B6] []) i = exact i.
Proof. coefficient. Qed.
Lemma CT_coefficients : forall i, (i < 8)%nat -> ccomb CT (kc [[]; B2; B3; B4; B5; B6] []) i = 0.
Proof. intros i; do 8 (destruct i as [|i]; [cbv [ccomb kc B2 B3 B4 B5 B6 CH CT app combine fold_right fst snd G exact]; lra|]); intros; lia. Qed.
