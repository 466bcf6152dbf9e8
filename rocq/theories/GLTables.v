(** The Gauss-Legendre tables of src/quadrature/gauss_legendre_integration.cpp, transcribed
    digit for digit: every entry is an integer number of 10^-25. *)
From Coq Require Import ZArith List.
Import ListNotations.
Open Scope Z_scope.

Definition gl_scale : Z := 10 ^ 25.

(** gauss_legendre_integration.cpp 21-21: s_weight<1> *)
Definition gl_weight_1 : list Z :=
  [20000000000000000000000000].
(** gauss_legendre_integration.cpp 24-24: s_pos<1> *)
Definition gl_pos_1 : list Z :=
  [0].
(** gauss_legendre_integration.cpp 28-28: s_weight<2> *)
Definition gl_weight_2 : list Z :=
  [10000000000000000000000000;
   10000000000000000000000000].
(** gauss_legendre_integration.cpp 32-32: s_pos<2> *)
Definition gl_pos_2 : list Z :=
  [-5773502691896257645091488;
   5773502691896257645091488].
(** gauss_legendre_integration.cpp 35-38: s_weight<3> *)
Definition gl_weight_3 : list Z :=
  [5555555555555555555555556;
   8888888888888888888888889;
   5555555555555555555555556].
(** gauss_legendre_integration.cpp 41-44: s_pos<3> *)
Definition gl_pos_3 : list Z :=
  [-7745966692414833770358531;
   0;
   7745966692414833770358531].
(** gauss_legendre_integration.cpp 47-51: s_weight<4> *)
Definition gl_weight_4 : list Z :=
  [3478548451374538573730639;
   6521451548625461426269361;
   6521451548625461426269361;
   3478548451374538573730639].
(** gauss_legendre_integration.cpp 54-58: s_pos<4> *)
Definition gl_pos_4 : list Z :=
  [-8611363115940525752239465;
   -3399810435848562648026658;
   3399810435848562648026658;
   8611363115940525752239465].
(** gauss_legendre_integration.cpp 61-66: s_weight<5> *)
Definition gl_weight_5 : list Z :=
  [2369268850561890875142640;
   4786286704993664680412915;
   5688888888888888888888889;
   4786286704993664680412915;
   2369268850561890875142640].
(** gauss_legendre_integration.cpp 69-74: s_pos<5> *)
Definition gl_pos_5 : list Z :=
  [-9061798459386639927976269;
   -5384693101056830910363144;
   0;
   5384693101056830910363144;
   9061798459386639927976269].
(** gauss_legendre_integration.cpp 77-83: s_weight<6> *)
Definition gl_weight_6 : list Z :=
  [1713244923791703450402961;
   3607615730481386075698335;
   4679139345726910473898703;
   4679139345726910473898703;
   3607615730481386075698335;
   1713244923791703450402961].
(** gauss_legendre_integration.cpp 86-92: s_pos<6> *)
Definition gl_pos_6 : list Z :=
  [-9324695142031520278123016;
   -6612093864662645136613996;
   -2386191860831969086305017;
   2386191860831969086305017;
   6612093864662645136613996;
   9324695142031520278123016].
(** gauss_legendre_integration.cpp 95-102: s_weight<7> *)
Definition gl_weight_7 : list Z :=
  [1294849661688696932706114;
   2797053914892766679014678;
   3818300505051189449503698;
   4179591836734693877551020;
   3818300505051189449503698;
   2797053914892766679014678;
   1294849661688696932706114].
(** gauss_legendre_integration.cpp 105-112: s_pos<7> *)
Definition gl_pos_7 : list Z :=
  [-9491079123427585245261897;
   -7415311855993944398638648;
   -4058451513773971669066064;
   0;
   4058451513773971669066064;
   7415311855993944398638648;
   9491079123427585245261897].
(** gauss_legendre_integration.cpp 115-123: s_weight<8> *)
Definition gl_weight_8 : list Z :=
  [1012285362903762591525314;
   2223810344533744705443560;
   3137066458778872873379622;
   3626837833783619829651504;
   3626837833783619829651504;
   3137066458778872873379622;
   2223810344533744705443560;
   1012285362903762591525314].
(** gauss_legendre_integration.cpp 126-134: s_pos<8> *)
Definition gl_pos_8 : list Z :=
  [-9602898564975362316835609;
   -7966664774136267395915539;
   -5255324099163289858177390;
   -1834346424956498049394761;
   1834346424956498049394761;
   5255324099163289858177390;
   7966664774136267395915539;
   9602898564975362316835609].
(** gauss_legendre_integration.cpp 137-146: s_weight<9> *)
Definition gl_weight_9 : list Z :=
  [812743883615744119718922;
   1806481606948574040584720;
   2606106964029354623187429;
   3123470770400028400686304;
   3302393550012597631645251;
   3123470770400028400686304;
   2606106964029354623187429;
   1806481606948574040584720;
   812743883615744119718922].
(** gauss_legendre_integration.cpp 149-158: s_pos<9> *)
Definition gl_pos_9 : list Z :=
  [-9681602395076260898355762;
   -8360311073266357942994298;
   -6133714327005903973087020;
   -3242534234038089290385380;
   0;
   3242534234038089290385380;
   6133714327005903973087020;
   8360311073266357942994298;
   9681602395076260898355762].
(** gauss_legendre_integration.cpp 161-171: s_weight<10> *)
Definition gl_weight_10 : list Z :=
  [666713443086881375935688;
   1494513491505805931457763;
   2190863625159820439955349;
   2692667193099963550912269;
   2955242247147528701738930;
   2955242247147528701738930;
   2692667193099963550912269;
   2190863625159820439955349;
   1494513491505805931457763;
   666713443086881375935688].
(** gauss_legendre_integration.cpp 174-184: s_pos<10> *)
Definition gl_pos_10 : list Z :=
  [-9739065285171717200779640;
   -8650633666889845107320967;
   -6794095682990244062343274;
   -4333953941292471907992659;
   -1488743389816312108848260;
   1488743389816312108848260;
   4333953941292471907992659;
   6794095682990244062343274;
   8650633666889845107320967;
   9739065285171717200779640].

(** (NPoints, weight, pos) for every instantiated NPoints (lines 194-203) *)
Definition gl_tables : list (nat * (list Z * list Z)) :=
  [(1%nat, (gl_weight_1, gl_pos_1));
   (2%nat, (gl_weight_2, gl_pos_2));
   (3%nat, (gl_weight_3, gl_pos_3));
   (4%nat, (gl_weight_4, gl_pos_4));
   (5%nat, (gl_weight_5, gl_pos_5));
   (6%nat, (gl_weight_6, gl_pos_6));
   (7%nat, (gl_weight_7, gl_pos_7));
   (8%nat, (gl_weight_8, gl_pos_8));
   (9%nat, (gl_weight_9, gl_pos_9));
   (10%nat, (gl_weight_10, gl_pos_10))].
