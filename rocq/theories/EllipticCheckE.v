(** The computation for the second kind (coefficients of backend/elliptic.c:46-83). *)
From Coq Require Import Reals List ZArith QArith.
From Verif Require Import PolyBound EllipticSeries EllipticNum EllipticCert EllipticWhole.
Import ListNotations.

Definition AE : list Q := [4.43147193467733e-1; 5.68115681053803e-2; 2.21862206993846e-2; 1.56847700239786e-2; 1.92284389022977e-2; 1.21819481486695e-2; 1.55618744745296e-3]%Q.
Definition BE : list Q := [2.49999998448655e-1; 9.37488062098189e-2; 5.84950297066166e-2; 4.09074821593164e-2; 2.35091602564984e-2; 6.45682247315060e-3; 3.78886487349367e-4]%Q.
Lemma E_check_log : check_both (fz (cA 1 AE) ucQ vcQ lam) (gz (cB 0 BE) ucQ) lam = true.
Proof. vm_cast_no_check (eq_refl true). Qed.
Lemma E_check_reg : check_reg (Hz (az 1 AE) (bz 0 BE) (tz ecQ half_pi) lz) = true.
Proof. vm_cast_no_check (eq_refl true). Qed.

