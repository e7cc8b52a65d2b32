(** Quadrature tables of the C backend, as the exact decimal numbers written in the source
    (the compiler rounds each to the nearest double, which is not modelled). *)
From Coq Require Import QArith List.
Import ListNotations.
Local Open Scope Q_scope.

(** backend/utilities_2d.c:4 GAUSS_QUAD_WEIGHTS *)
Definition gauss_weights : list Q :=
  [(1894506104550685 # 10000000000000000);
   (1894506104550685 # 10000000000000000);
   (1826034150449236 # 10000000000000000);
   (1826034150449236 # 10000000000000000);
   (1691565193950025 # 10000000000000000);
   (1691565193950025 # 10000000000000000);
   (1495959888165767 # 10000000000000000);
   (1495959888165767 # 10000000000000000);
   (1246289712555339 # 10000000000000000);
   (1246289712555339 # 10000000000000000);
   (951585116824928 # 10000000000000000);
   (951585116824928 # 10000000000000000);
   (622535239386479 # 10000000000000000);
   (622535239386479 # 10000000000000000);
   (271524594117541 # 10000000000000000);
   (271524594117541 # 10000000000000000)].

(** backend/utilities_2d.c:5 GAUSS_QUAD_POINTS *)
Definition gauss_points : list Q :=
  [(-950125098376374 # 10000000000000000);
   (950125098376374 # 10000000000000000);
   (-2816035507792589 # 10000000000000000);
   (2816035507792589 # 10000000000000000);
   (-4580167776572274 # 10000000000000000);
   (4580167776572274 # 10000000000000000);
   (-6178762444026438 # 10000000000000000);
   (6178762444026438 # 10000000000000000);
   (-7554044083550030 # 10000000000000000);
   (7554044083550030 # 10000000000000000);
   (-8656312023878318 # 10000000000000000);
   (8656312023878318 # 10000000000000000);
   (-9445750230732326 # 10000000000000000);
   (9445750230732326 # 10000000000000000);
   (-9894009349916499 # 10000000000000000);
   (9894009349916499 # 10000000000000000)].

(** backend/utilities_3d.c:7-19 QUAD_WEIGHTS *)
Definition quad_weights : list Q :=
  [(254224531851035 # 10000000000000000);
   (254224531851035 # 10000000000000000);
   (254224531851035 # 10000000000000000);
   (583931378631895 # 10000000000000000);
   (583931378631895 # 10000000000000000);
   (583931378631895 # 10000000000000000);
   (41425537809187 # 1000000000000000);
   (41425537809187 # 1000000000000000);
   (41425537809187 # 1000000000000000);
   (41425537809187 # 1000000000000000);
   (41425537809187 # 1000000000000000);
   (41425537809187 # 1000000000000000)].

(** backend/utilities_3d.c:21-33 QUAD_B1 *)
Definition quad_b1 : list Q :=
  [(873821971016996 # 1000000000000000);
   (63089014491502 # 1000000000000000);
   (63089014491502 # 1000000000000000);
   (501426509658179 # 1000000000000000);
   (249286745170910 # 1000000000000000);
   (249286745170910 # 1000000000000000);
   (636502499121399 # 1000000000000000);
   (636502499121399 # 1000000000000000);
   (310352451033785 # 1000000000000000);
   (310352451033785 # 1000000000000000);
   (53145049844816 # 1000000000000000);
   (53145049844816 # 1000000000000000)].

(** backend/utilities_3d.c:35-47 QUAD_B2 *)
Definition quad_b2 : list Q :=
  [(63089014491502 # 1000000000000000);
   (873821971016996 # 1000000000000000);
   (63089014491502 # 1000000000000000);
   (249286745170910 # 1000000000000000);
   (501426509658179 # 1000000000000000);
   (249286745170910 # 1000000000000000);
   (310352451033785 # 1000000000000000);
   (53145049844816 # 1000000000000000);
   (636502499121399 # 1000000000000000);
   (53145049844816 # 1000000000000000);
   (636502499121399 # 1000000000000000);
   (310352451033785 # 1000000000000000)].

(** backend/kronrod.c:7-12 G7_WEIGHTS *)
Definition g7_weights : list Q :=
  [(417959183673469 # 1000000000000000);
   (381830050505119 # 1000000000000000);
   (279705391489277 # 1000000000000000);
   (129484966168870 # 1000000000000000)].

(** backend/kronrod.c:14-19 G7_NODES *)
Definition g7_nodes : list Q :=
  [(0 # 1000000000000000);
   (405845151377397 # 1000000000000000);
   (741531185599394 # 1000000000000000);
   (949107912342759 # 1000000000000000)].

(** backend/kronrod.c:21-30 K15_WEIGHTS *)
Definition k15_weights : list Q :=
  [(209482141084728 # 1000000000000000);
   (204432940075299 # 1000000000000000);
   (190350578064785 # 1000000000000000);
   (169004726639268 # 1000000000000000);
   (140653259715526 # 1000000000000000);
   (104790010322250 # 1000000000000000);
   (63092092629979 # 1000000000000000);
   (22935322010529 # 1000000000000000)].

(** backend/kronrod.c:32-41 K15_NODES *)
Definition k15_nodes : list Q :=
  [(0 # 1000000000000000);
   (207784955007898 # 1000000000000000);
   (405845151377397 # 1000000000000000);
   (586087235467691 # 1000000000000000);
   (741531185599394 # 1000000000000000);
   (864864423359769 # 1000000000000000);
   (949107912342759 # 1000000000000000);
   (991455371120813 # 1000000000000000)].
