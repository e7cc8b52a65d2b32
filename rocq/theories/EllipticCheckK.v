(** The computation for the first kind (coefficients of backend/elliptic.c:9-44). *)
From Coq Require Import Reals List ZArith QArith.
From Verif Require Import PolyBound EllipticSeries EllipticNum EllipticCert EllipticWhole.
Import ListNotations.

Definition AK : list Q := [9.65736020516771e-2; 3.08909633861795e-2; 1.52618320622534e-2; 1.25565693543211e-2; 1.68695685967517e-2; 1.09423810688623e-2; 1.40704915496101e-3]%Q.
Definition BK : list Q := [1.24999998585309e-1; 7.03114105853296e-2; 4.87379510945218e-2; 3.57218443007327e-2; 2.09857677336790e-2; 5.81807961871996e-3; 3.42805719229748e-4]%Q.
Definition tcQ (n : nat) : Q := ((2 # 1) * pcQ n)%Q.
Lemma K_check_log : check_both (fz (cA ((2 # 1) * lam)%Q AK) pcQ qcQ lam) (gz (cB (1 # 2) BK) pcQ) lam = true.
Proof. vm_cast_no_check (eq_refl true). Qed.
Lemma K_check_reg : check_reg (Hz (az ((2 # 1) * lam)%Q AK) (bz (1 # 2) BK) (tz tcQ half_pi) lz) = true.
Proof. vm_cast_no_check (eq_refl true). Qed.
