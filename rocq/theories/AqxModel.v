(** Model of the quadrature an <ang_quad> tag makes: src/core/angular_quadrature.cpp:47-113 with the generators of
    src/core/level_symmetric.hpp and src/core/product_quadrature.hpp.  Real arithmetic is exact. *)
From Coq Require Import ZArith List Bool Reals Ascii String.
From Verif Require Import RUtil MeshModel AngModel AqModel StrModel.
Import ListNotations.
Open Scope list_scope.
Open Scope R_scope.

(** src/core/level_symmetric.hpp:34-39 w_unique; all but the first two in units of 1e-7. *)
Definition w_unique : list R := 1 :: 1 / 3 :: map (fun z => IZR z / 10 ^ 7)
  [1761262; 1572071; 1209876; 907408; 925925; 893043; 725281; 450455; 539274; 707734; 558760; 373436; 502654; 258553; 580031; 488943;
   228095; 393955; 380920; 258382; 82759; 489967; 413235; 203158; 265468; 378883; 135404; 326129; 103825]%Z.
(** src/core/level_symmetric.hpp:90: one angle, before the weights are scaled. *)
Definition ls_angle (n : nat) (o : Ordinate) : Angle := mkAngle (dir_cosines (mu n (ix o)) (mu n (iy o)) (mu n (iz o))) (nth (iw o) w_unique 0).
(** src/core/level_symmetric.hpp:98-104: weights divided by their sum. *)
Definition ls_scaled (n : nat) (os : list Ordinate) : list Angle :=
  let raw := map (ls_angle n) os in
  let wsum := fold_left (fun s a => s + weight a) raw 0 in
  map (fun a => mkAngle (adir a) (weight a / wsum)) raw.

(** What the constructor reads of its tag: whether there is one, whether it is called ang_quad, the type, and the numbers (lines
    50-60, 70); the angles of a user quadrature (line 95).  Text that is not a number is read as some number by the XML library and
    is not modelled.  Lines 66, 76, 86, 93 only warn.  See src/core/angular_quadrature.cpp:47-113. *)
Record QTag := mkQTag { qt_there : bool; qt_named : bool; qt_type : list ascii; qt_nazi : option Z; qt_npol : option Z; qt_order : option Z; qt_angles : list XAng }.
(** As above, src/core/angular_quadrature.cpp:59-60 and 70: as_int(-1). *)
Definition int_or (o : option Z) : Z := match o with Some v => v | None => (-1)%Z end.
(** Comparison of std::string with a literal, src/core/angular_quadrature.cpp:65-96. *)
Definition is_type (s : list ascii) (t : string) : bool := if list_eq_dec ascii_dec s (list_ascii_of_string t) then true else false.
(** src/core/angular_quadrature.cpp:47-113 AngularQuadrature(xml).  [passes] is how many passes the iteration of GenGauss makes
    (product_quadrature.hpp:96-115) less one, for the given number of polar angles. *)
Definition make_quad (passes : nat -> nat) (t : QTag) : QRead :=
  if negb (qt_there t) then QThrow
  else if negb (qt_named t) then QThrow
  else
    let na := int_or (qt_nazi t) in let np := int_or (qt_npol t) in
    match sanitize (qt_type t) with
    | SVal ty =>
        if is_type ty "ls" || is_type ty "level-symmetric" then
          match gen_sn (int_or (qt_order t)) with
          | SnOk os => QOk (quad_of LS na np (ls_scaled (Z.to_nat (Z.quot (int_or (qt_order t)) 2)) os))
          | SnThrow => QThrow
          | SnUB => QUB
          end
        else if is_type ty "cg" || is_type ty "chebyshev-gauss" then
          if (na <? 1)%Z || (np <? 1)%Z then QThrow
          else QOk (quad_of CHEB_GAUSS na np (gen_product (gen_chebyshev (Z.to_nat na)) (gen_gauss (Z.to_nat np) (passes (Z.to_nat np)))))
        else if is_type ty "cy" || is_type ty "chebyshev-yamamoto" then
          if (na <? 1)%Z || (np <? 1)%Z then QThrow
          else match gen_yamamoto_n np with
               | Some pol => QOk (quad_of CHEB_YAMAMOTO na np (gen_product (gen_chebyshev (Z.to_nat na)) pol))
               | None => QThrow
               end
        else if is_type ty "user" then
          match user_quad (qt_angles t) (qt_nazi t) (qt_npol t) with Some q => QOk q | None => QThrow end
        else QThrow
    | _ => QUB
    end.
