(** Series expansion around the axis for three-dimensional fields (backend/three_d.c) over the reals. *)
From Coq Require Import Reals ZArith.
From Verif Require Import Base Vec GeomModel PathModel FieldModel SeriesModel.
Local Open Scope R_scope.

(** three_d.c:3-4 *)
Definition NU_MAX : nat := 4.
Definition M_MAX : nat := 8.

(** ** Coefficients *)
(** three_d.c:102-106 factorial *)
Definition factorial_table : list (list R) :=
  [ [1.0; 1.0; 0.5; 0.1666666666666666; 0.04166666666666666; 0.008333333333333334; 0.001388888888888889; 1.984126984126984e-4];
    [0.5; 0.1666666666666666; 0.04166666666666666; 0.008333333333333334; 0.001388888888888889; 1.984126984126984e-4; 2.48015873015873e-5; 2.755731922398589e-6];
    [0.04166666666666666; 0.008333333333333334; 0.001388888888888889; 1.984126984126984e-4; 2.48015873015873e-5; 2.755731922398589e-6; 2.755731922398589e-7; 2.505210838544172e-8];
    [0.001388888888888889; 1.984126984126984e-4; 2.48015873015873e-5; 2.755731922398589e-6; 2.755731922398589e-7; 2.505210838544172e-8; 2.08767569878681e-9; 1.605904383682161e-10] ].
(** three_d.c:142-178 output_base, with the powers of p and sqrt(p2+1) named as in the code *)
Definition output_base (p2 p4 p6 p8 p10 p12 p14 sq : R) : list (list R) :=
  [ [ 1 / 2;
      1 / (4 * sq);
      (3) / ((8 * p2 + 8));
      (15) / (sq * (16 * p2 + 16));
      (105) / ((32 * p4 + 64 * p2 + 32));
      (945 * sq) / ((64 * p6 + 192 * p4 + 192 * p2 + 64));
      (10395) / ((128 * p6 + 384 * p4 + 384 * p2 + 128));
      (135135 * sq) / ((256 * p8 + 1024 * p6 + 1536 * p4 + 1024 * p2 + 256)) ];
    [ - (2 * p2 - 1) / ((4 * p2 + 4));
      - (36 * p2 - 9) / (sq * (16 * p2 + 16));
      - (90 * p2 - 15) / ((8 * p4 + 16 * p2 + 8));
      - (sq * (4200 * p2 - 525)) / ((64 * p6 + 192 * p4 + 192 * p2 + 64));
      - (28350 * p2 - 2835) / ((64 * p6 + 192 * p4 + 192 * p2 + 64));
      - (sq * (873180 * p2 - 72765)) / ((256 * p8 + 1024 * p6 + 1536 * p4 + 1024 * p2 + 256));
      - (1891890 * p2 - 135135) / ((64 * p8 + 256 * p6 + 384 * p4 + 256 * p2 + 64));
      - (291891600 * p2 - 18243225) / (sq * (1024 * p8 + 4096 * p6 + 6144 * p4 + 4096 * p2 + 1024)) ];
    [ (72 * p4 - 216 * p2 + 27) / ((16 * p4 + 32 * p2 + 16));
      (sq * (1800 * p4 - 2700 * p2 + 225)) / ((32 * p6 + 96 * p4 + 96 * p2 + 32));
      (75600 * p4 - 75600 * p2 + 4725) / ((128 * p6 + 384 * p4 + 384 * p2 + 128));
      (sq * (1587600 * p4 - 1190700 * p2 + 59535)) / ((256 * p8 + 1024 * p6 + 1536 * p4 + 1024 * p2 + 256));
      (8731800 * p4 - 5239080 * p2 + 218295) / ((128 * p8 + 512 * p6 + 768 * p4 + 512 * p2 + 128));
      (204324120 * p4 - 102162060 * p2 + 3648645) / (sq * (256 * p8 + 1024 * p6 + 1536 * p4 + 1024 * p2 + 256));
      (20432412000 * p4 - 8756748000 * p2 + 273648375) / ((2048 * p10 + 10240 * p8 + 20480 * p6 + 20480 * p4 + 10240 * p2 + 2048));
      (545837292000 * p4 - 204688984500 * p2 + 5685805125) / (sq * (4096 * p10 + 20480 * p8 + 40960 * p6 + 40960 * p4 + 20480 * p2 + 4096)) ];
    [ - (3600 * p6 - 27000 * p4 + 20250 * p2 - 1125) / ((32 * p6 + 96 * p4 + 96 * p2 + 32));
      - (sq * (705600 * p6 - 2646000 * p4 + 1323000 * p2 - 55125)) / ((256 * p8 + 1024 * p6 + 1536 * p4 + 1024 * p2 + 256));
      - (3175200 * p6 - 7938000 * p4 + 2976750 * p2 - 99225) / ((64 * p8 + 256 * p6 + 384 * p4 + 256 * p2 + 64));
      - (209563200 * p6 - 392931000 * p4 + 117879300 * p2 - 3274425) / (sq * (256 * p8 + 1024 * p6 + 1536 * p4 + 1024 * p2 + 256));
      - (3405402000 * p6 - 5108103000 * p4 + 1277025750 * p2 - 30405375) / ((256 * p10 + 1280 * p8 + 2560 * p6 + 2560 * p4 + 1280 * p2 + 256));
      - (899026128000 * p6 - 1123782660000 * p4 + 240810570000 * p2 - 5016886875) / (sq * (4096 * p10 + 20480 * p8 + 40960 * p6 + 40960 * p4 + 20480 * p2 + 4096));
      - (7641722088000 * p6 - 8187559380000 * p4 + 1535167383750 * p2 - 28429025625) / ((2048 * p12 + 12288 * p10 + 30720 * p8 + 40960 * p6 + 30720 * p4 + 12288 * p2 + 2048));
      - (sq * (539287244496000 * p6 - 505581791715000 * p4 + 84263631952500 * p2 - 1404393865875)) / (8192 * p14 + 57344 * p12 + 172032 * p10 + 286720 * p8 + 286720 * p6 + 172032 * p4 + 57344 * p2 + 8192) ] ].
(** three_d.c:110-122 the angular factors.  [m*mu] with [mu = atan2(y, x)]. *)
Definition trig_cos (q : vec3) (m : nat) : R := 1 / PI * cos (INR m * atan2 (vy q) (vx q)) * (if (m =? 0)%nat then 1 / 2 else 1).
Definition trig_sin (q : vec3) (m : nat) : R := 1 / PI * sin (INR m * atan2 (vy q) (vx q)).
(** three_d.c:127-140, 180-195: contribution of a unit charge at [q] to the coefficient (nu, m) at height
    [z], with [trig] one of the two angular factors.  [r_dependence] is [pow(r, 2*nu+1)] multiplied by [r]
    once for every smaller m. *)
Definition axial_term (trig : vec3 -> nat -> R) (z : R) (nu m : nat) (q : vec3) : R :=
  let r := 1 / sqrt (vx q * vx q + vy q * vy q + (vz q - z) * (vz q - z)) in
  let p := (vz q - z) / norm_2d (vx q) (vy q) in
  let base := nth m (nth nu (output_base (p ^ 2) (p ^ 4) (p ^ 6) (p ^ 8) (p ^ 10) (p ^ 12) (p ^ 14) (sqrt (p ^ 2 + 1))) []) 0 in
  base * trig q m * (r ^ (2 * nu + 1) * r ^ m) * nth m (nth nu factorial_table []) 0.
(** three_d.c:89-198 axial_coefficients_3d: output_coeffs[i][0][nu][m] and output_coeffs[i][1][nu][m] at the
    height z = zs[i].  A charge on the axis would divide by zero; the theorems exclude it. *)
Definition axial_coefficient (sine : bool) (z : R) (c : charges) (nu m : nat) : R :=
  evaluate (axial_term (if sine then trig_sin else trig_cos) z nu m) c.
Definition axial_coefficients_3d (c : charges) (zs : list R) : list (bool -> nat -> nat -> R) :=
  map (fun z sine nu m => axial_coefficient sine z c nu m) zs.

(** ** Evaluation *)
(** One row of the table of interpolated coefficients: shape (2, NU_MAX, M_MAX, 4), highest power first;
    the first index is 0 for the cosine and 1 for the sine coefficients. *)
Definition poly4 := (R * R * R * R)%type.
Definition coeff3d_row := bool -> nat -> nat -> poly4.
Definition cubic_at (c : poly4) (z : R) : R := let '(c0, c1, c2, c3) := c in z ^ 3 * c0 + z ^ 2 * c1 + z * c2 + c3.
Definition cubic_diff (c : poly4) (z : R) : R := let '(c0, c1, c2, c3) := c in 3 * z ^ 2 * c0 + 2 * z * c1 + c2.
(** three_d.c:205-219 and 246-261: range test, row and distance to its sample; [None] outside the range.  A
    row that is not in the table is an error. *)
Definition series3d_row (zs : list R) (coeff : list coeff3d_row) (z : R) : result (option (coeff3d_row * R)) :=
  z0 <- np_get zs 0 ;; zlast <- np_get zs (length zs - 1) ;;
  if Rle_dec z0 z then
    if Rle_dec z zlast then
      z1 <- np_get zs 1 ;;
      let index := series_index zs z0 z1 z in
      zi <- np_get zs index ;;
      row <- np_get coeff index ;;
      Ok (Some (row, z - zi))
    else Ok None
  else Ok None.
(** the double loop over nu and m *)
Definition sum_nu_m (f : nat -> nat -> R) : R := Rsum (map (fun nu => Rsum (map (f nu) (arange M_MAX))) (arange NU_MAX)).
(** three_d.c:228-236 *)
Definition potential3d_term (A B : nat -> nat -> R) (r phi : R) (nu m : nat) : R :=
  (A nu m * cos (INR m * phi) + B nu m * sin (INR m * phi)) * r ^ (m + 2 * nu).
(** three_d.c:200-237 potential_3d_derivs *)
Definition potential_3d_derivs (p : vec3) (zs : list R) (coeff : list coeff3d_row) : result R :=
  d <- series3d_row zs coeff (vz p) ;;
  Ok match d with
     | None => 0
     | Some (C, z_) =>
         let A nu m := cubic_at (C false nu m) z_ in
         let B nu m := cubic_at (C true nu m) z_ in
         sum_nu_m (potential3d_term A B (norm_2d (vx p) (vy p)) (atan2 (vy p) (vx p)))
     end.
(** three_d.c:286-298: what is subtracted from each component of the field.  [pow(r, exp-1)] with exp = 0 is
    multiplied by zero. *)
Definition field3d_term (A B : nat -> nat -> R) (r phi xp yp : R) (nu m : nat) : R * R :=
  let exp := (2 * nu + m)%nat in
  let diff_r := (A nu m * cos (INR m * phi) + B nu m * sin (INR m * phi)) * INR exp * r ^ (exp - 1) in
  let diff_theta := INR m * (- A nu m * sin (INR m * phi) + B nu m * cos (INR m * phi)) * r ^ exp in
  (diff_r * xp / r + diff_theta * - yp / r ^ 2, diff_r * yp / r + diff_theta * xp / r ^ 2).
(** three_d.c:239-300 field_3d_derivs *)
Definition field_3d_derivs (p : vec3) (zs : list R) (coeff : list coeff3d_row) : result vec3 :=
  d <- series3d_row zs coeff (vz p) ;;
  Ok match d with
     | None => vzero
     | Some (C, z_) =>
         let A nu m := cubic_at (C false nu m) z_ in
         let B nu m := cubic_at (C true nu m) z_ in
         let Adiff nu m := cubic_diff (C false nu m) z_ in
         let Bdiff nu m := cubic_diff (C true nu m) z_ in
         let r := norm_2d (vx p) (vy p) in
         let phi := atan2 (vy p) (vx p) in
         if Rlt_dec r MIN_DISTANCE_AXIS then V3 (- A 0%nat 1%nat) (- B 0%nat 1%nat) (- Adiff 0%nat 0%nat)
         else V3 (- sum_nu_m (fun nu m => fst (field3d_term A B r phi (vx p) (vy p) nu m)))
                 (- sum_nu_m (fun nu m => snd (field3d_term A B r phi (vx p) (vy p) nu m)))
                 (- sum_nu_m (potential3d_term Adiff Bdiff r phi))
     end.
