(** SimdTab: the constant tables of the vector code, copied from the C text by
    tools/gen_simdtab.py (do not edit). *)
From Verif Require Import Base.

(** array_util.c:36-378 shuffle_mask16 *)
Definition shuffle_mask16 : list Z :=
 [255; 255; 255; 255; 255; 255; 255; 255; 255; 255; 255; 255; 255; 255; 255; 255;
  0; 1; 255; 255; 255; 255; 255; 255; 255; 255; 255; 255; 255; 255; 255; 255;
  2; 3; 255; 255; 255; 255; 255; 255; 255; 255; 255; 255; 255; 255; 255; 255;
  0; 1; 2; 3; 255; 255; 255; 255; 255; 255; 255; 255; 255; 255; 255; 255;
  4; 5; 255; 255; 255; 255; 255; 255; 255; 255; 255; 255; 255; 255; 255; 255;
  0; 1; 4; 5; 255; 255; 255; 255; 255; 255; 255; 255; 255; 255; 255; 255;
  2; 3; 4; 5; 255; 255; 255; 255; 255; 255; 255; 255; 255; 255; 255; 255;
  0; 1; 2; 3; 4; 5; 255; 255; 255; 255; 255; 255; 255; 255; 255; 255;
  6; 7; 255; 255; 255; 255; 255; 255; 255; 255; 255; 255; 255; 255; 255; 255;
  0; 1; 6; 7; 255; 255; 255; 255; 255; 255; 255; 255; 255; 255; 255; 255;
  2; 3; 6; 7; 255; 255; 255; 255; 255; 255; 255; 255; 255; 255; 255; 255;
  0; 1; 2; 3; 6; 7; 255; 255; 255; 255; 255; 255; 255; 255; 255; 255;
  4; 5; 6; 7; 255; 255; 255; 255; 255; 255; 255; 255; 255; 255; 255; 255;
  0; 1; 4; 5; 6; 7; 255; 255; 255; 255; 255; 255; 255; 255; 255; 255;
  2; 3; 4; 5; 6; 7; 255; 255; 255; 255; 255; 255; 255; 255; 255; 255;
  0; 1; 2; 3; 4; 5; 6; 7; 255; 255; 255; 255; 255; 255; 255; 255;
  8; 9; 255; 255; 255; 255; 255; 255; 255; 255; 255; 255; 255; 255; 255; 255;
  0; 1; 8; 9; 255; 255; 255; 255; 255; 255; 255; 255; 255; 255; 255; 255;
  2; 3; 8; 9; 255; 255; 255; 255; 255; 255; 255; 255; 255; 255; 255; 255;
  0; 1; 2; 3; 8; 9; 255; 255; 255; 255; 255; 255; 255; 255; 255; 255;
  4; 5; 8; 9; 255; 255; 255; 255; 255; 255; 255; 255; 255; 255; 255; 255;
  0; 1; 4; 5; 8; 9; 255; 255; 255; 255; 255; 255; 255; 255; 255; 255;
  2; 3; 4; 5; 8; 9; 255; 255; 255; 255; 255; 255; 255; 255; 255; 255;
  0; 1; 2; 3; 4; 5; 8; 9; 255; 255; 255; 255; 255; 255; 255; 255;
  6; 7; 8; 9; 255; 255; 255; 255; 255; 255; 255; 255; 255; 255; 255; 255;
  0; 1; 6; 7; 8; 9; 255; 255; 255; 255; 255; 255; 255; 255; 255; 255;
  2; 3; 6; 7; 8; 9; 255; 255; 255; 255; 255; 255; 255; 255; 255; 255;
  0; 1; 2; 3; 6; 7; 8; 9; 255; 255; 255; 255; 255; 255; 255; 255;
  4; 5; 6; 7; 8; 9; 255; 255; 255; 255; 255; 255; 255; 255; 255; 255;
  0; 1; 4; 5; 6; 7; 8; 9; 255; 255; 255; 255; 255; 255; 255; 255;
  2; 3; 4; 5; 6; 7; 8; 9; 255; 255; 255; 255; 255; 255; 255; 255;
  0; 1; 2; 3; 4; 5; 6; 7; 8; 9; 255; 255; 255; 255; 255; 255;
  10; 11; 255; 255; 255; 255; 255; 255; 255; 255; 255; 255; 255; 255; 255; 255;
  0; 1; 10; 11; 255; 255; 255; 255; 255; 255; 255; 255; 255; 255; 255; 255;
  2; 3; 10; 11; 255; 255; 255; 255; 255; 255; 255; 255; 255; 255; 255; 255;
  0; 1; 2; 3; 10; 11; 255; 255; 255; 255; 255; 255; 255; 255; 255; 255;
  4; 5; 10; 11; 255; 255; 255; 255; 255; 255; 255; 255; 255; 255; 255; 255;
  0; 1; 4; 5; 10; 11; 255; 255; 255; 255; 255; 255; 255; 255; 255; 255;
  2; 3; 4; 5; 10; 11; 255; 255; 255; 255; 255; 255; 255; 255; 255; 255;
  0; 1; 2; 3; 4; 5; 10; 11; 255; 255; 255; 255; 255; 255; 255; 255;
  6; 7; 10; 11; 255; 255; 255; 255; 255; 255; 255; 255; 255; 255; 255; 255;
  0; 1; 6; 7; 10; 11; 255; 255; 255; 255; 255; 255; 255; 255; 255; 255;
  2; 3; 6; 7; 10; 11; 255; 255; 255; 255; 255; 255; 255; 255; 255; 255;
  0; 1; 2; 3; 6; 7; 10; 11; 255; 255; 255; 255; 255; 255; 255; 255;
  4; 5; 6; 7; 10; 11; 255; 255; 255; 255; 255; 255; 255; 255; 255; 255;
  0; 1; 4; 5; 6; 7; 10; 11; 255; 255; 255; 255; 255; 255; 255; 255;
  2; 3; 4; 5; 6; 7; 10; 11; 255; 255; 255; 255; 255; 255; 255; 255;
  0; 1; 2; 3; 4; 5; 6; 7; 10; 11; 255; 255; 255; 255; 255; 255;
  8; 9; 10; 11; 255; 255; 255; 255; 255; 255; 255; 255; 255; 255; 255; 255;
  0; 1; 8; 9; 10; 11; 255; 255; 255; 255; 255; 255; 255; 255; 255; 255;
  2; 3; 8; 9; 10; 11; 255; 255; 255; 255; 255; 255; 255; 255; 255; 255;
  0; 1; 2; 3; 8; 9; 10; 11; 255; 255; 255; 255; 255; 255; 255; 255;
  4; 5; 8; 9; 10; 11; 255; 255; 255; 255; 255; 255; 255; 255; 255; 255;
  0; 1; 4; 5; 8; 9; 10; 11; 255; 255; 255; 255; 255; 255; 255; 255;
  2; 3; 4; 5; 8; 9; 10; 11; 255; 255; 255; 255; 255; 255; 255; 255;
  0; 1; 2; 3; 4; 5; 8; 9; 10; 11; 255; 255; 255; 255; 255; 255;
  6; 7; 8; 9; 10; 11; 255; 255; 255; 255; 255; 255; 255; 255; 255; 255;
  0; 1; 6; 7; 8; 9; 10; 11; 255; 255; 255; 255; 255; 255; 255; 255;
  2; 3; 6; 7; 8; 9; 10; 11; 255; 255; 255; 255; 255; 255; 255; 255;
  0; 1; 2; 3; 6; 7; 8; 9; 10; 11; 255; 255; 255; 255; 255; 255;
  4; 5; 6; 7; 8; 9; 10; 11; 255; 255; 255; 255; 255; 255; 255; 255;
  0; 1; 4; 5; 6; 7; 8; 9; 10; 11; 255; 255; 255; 255; 255; 255;
  2; 3; 4; 5; 6; 7; 8; 9; 10; 11; 255; 255; 255; 255; 255; 255;
  0; 1; 2; 3; 4; 5; 6; 7; 8; 9; 10; 11; 255; 255; 255; 255;
  12; 13; 255; 255; 255; 255; 255; 255; 255; 255; 255; 255; 255; 255; 255; 255;
  0; 1; 12; 13; 255; 255; 255; 255; 255; 255; 255; 255; 255; 255; 255; 255;
  2; 3; 12; 13; 255; 255; 255; 255; 255; 255; 255; 255; 255; 255; 255; 255;
  0; 1; 2; 3; 12; 13; 255; 255; 255; 255; 255; 255; 255; 255; 255; 255;
  4; 5; 12; 13; 255; 255; 255; 255; 255; 255; 255; 255; 255; 255; 255; 255;
  0; 1; 4; 5; 12; 13; 255; 255; 255; 255; 255; 255; 255; 255; 255; 255;
  2; 3; 4; 5; 12; 13; 255; 255; 255; 255; 255; 255; 255; 255; 255; 255;
  0; 1; 2; 3; 4; 5; 12; 13; 255; 255; 255; 255; 255; 255; 255; 255;
  6; 7; 12; 13; 255; 255; 255; 255; 255; 255; 255; 255; 255; 255; 255; 255;
  0; 1; 6; 7; 12; 13; 255; 255; 255; 255; 255; 255; 255; 255; 255; 255;
  2; 3; 6; 7; 12; 13; 255; 255; 255; 255; 255; 255; 255; 255; 255; 255;
  0; 1; 2; 3; 6; 7; 12; 13; 255; 255; 255; 255; 255; 255; 255; 255;
  4; 5; 6; 7; 12; 13; 255; 255; 255; 255; 255; 255; 255; 255; 255; 255;
  0; 1; 4; 5; 6; 7; 12; 13; 255; 255; 255; 255; 255; 255; 255; 255;
  2; 3; 4; 5; 6; 7; 12; 13; 255; 255; 255; 255; 255; 255; 255; 255;
  0; 1; 2; 3; 4; 5; 6; 7; 12; 13; 255; 255; 255; 255; 255; 255;
  8; 9; 12; 13; 255; 255; 255; 255; 255; 255; 255; 255; 255; 255; 255; 255;
  0; 1; 8; 9; 12; 13; 255; 255; 255; 255; 255; 255; 255; 255; 255; 255;
  2; 3; 8; 9; 12; 13; 255; 255; 255; 255; 255; 255; 255; 255; 255; 255;
  0; 1; 2; 3; 8; 9; 12; 13; 255; 255; 255; 255; 255; 255; 255; 255;
  4; 5; 8; 9; 12; 13; 255; 255; 255; 255; 255; 255; 255; 255; 255; 255;
  0; 1; 4; 5; 8; 9; 12; 13; 255; 255; 255; 255; 255; 255; 255; 255;
  2; 3; 4; 5; 8; 9; 12; 13; 255; 255; 255; 255; 255; 255; 255; 255;
  0; 1; 2; 3; 4; 5; 8; 9; 12; 13; 255; 255; 255; 255; 255; 255;
  6; 7; 8; 9; 12; 13; 255; 255; 255; 255; 255; 255; 255; 255; 255; 255;
  0; 1; 6; 7; 8; 9; 12; 13; 255; 255; 255; 255; 255; 255; 255; 255;
  2; 3; 6; 7; 8; 9; 12; 13; 255; 255; 255; 255; 255; 255; 255; 255;
  0; 1; 2; 3; 6; 7; 8; 9; 12; 13; 255; 255; 255; 255; 255; 255;
  4; 5; 6; 7; 8; 9; 12; 13; 255; 255; 255; 255; 255; 255; 255; 255;
  0; 1; 4; 5; 6; 7; 8; 9; 12; 13; 255; 255; 255; 255; 255; 255;
  2; 3; 4; 5; 6; 7; 8; 9; 12; 13; 255; 255; 255; 255; 255; 255;
  0; 1; 2; 3; 4; 5; 6; 7; 8; 9; 12; 13; 255; 255; 255; 255;
  10; 11; 12; 13; 255; 255; 255; 255; 255; 255; 255; 255; 255; 255; 255; 255;
  0; 1; 10; 11; 12; 13; 255; 255; 255; 255; 255; 255; 255; 255; 255; 255;
  2; 3; 10; 11; 12; 13; 255; 255; 255; 255; 255; 255; 255; 255; 255; 255;
  0; 1; 2; 3; 10; 11; 12; 13; 255; 255; 255; 255; 255; 255; 255; 255;
  4; 5; 10; 11; 12; 13; 255; 255; 255; 255; 255; 255; 255; 255; 255; 255;
  0; 1; 4; 5; 10; 11; 12; 13; 255; 255; 255; 255; 255; 255; 255; 255;
  2; 3; 4; 5; 10; 11; 12; 13; 255; 255; 255; 255; 255; 255; 255; 255;
  0; 1; 2; 3; 4; 5; 10; 11; 12; 13; 255; 255; 255; 255; 255; 255;
  6; 7; 10; 11; 12; 13; 255; 255; 255; 255; 255; 255; 255; 255; 255; 255;
  0; 1; 6; 7; 10; 11; 12; 13; 255; 255; 255; 255; 255; 255; 255; 255;
  2; 3; 6; 7; 10; 11; 12; 13; 255; 255; 255; 255; 255; 255; 255; 255;
  0; 1; 2; 3; 6; 7; 10; 11; 12; 13; 255; 255; 255; 255; 255; 255;
  4; 5; 6; 7; 10; 11; 12; 13; 255; 255; 255; 255; 255; 255; 255; 255;
  0; 1; 4; 5; 6; 7; 10; 11; 12; 13; 255; 255; 255; 255; 255; 255;
  2; 3; 4; 5; 6; 7; 10; 11; 12; 13; 255; 255; 255; 255; 255; 255;
  0; 1; 2; 3; 4; 5; 6; 7; 10; 11; 12; 13; 255; 255; 255; 255;
  8; 9; 10; 11; 12; 13; 255; 255; 255; 255; 255; 255; 255; 255; 255; 255;
  0; 1; 8; 9; 10; 11; 12; 13; 255; 255; 255; 255; 255; 255; 255; 255;
  2; 3; 8; 9; 10; 11; 12; 13; 255; 255; 255; 255; 255; 255; 255; 255;
  0; 1; 2; 3; 8; 9; 10; 11; 12; 13; 255; 255; 255; 255; 255; 255;
  4; 5; 8; 9; 10; 11; 12; 13; 255; 255; 255; 255; 255; 255; 255; 255;
  0; 1; 4; 5; 8; 9; 10; 11; 12; 13; 255; 255; 255; 255; 255; 255;
  2; 3; 4; 5; 8; 9; 10; 11; 12; 13; 255; 255; 255; 255; 255; 255;
  0; 1; 2; 3; 4; 5; 8; 9; 10; 11; 12; 13; 255; 255; 255; 255;
  6; 7; 8; 9; 10; 11; 12; 13; 255; 255; 255; 255; 255; 255; 255; 255;
  0; 1; 6; 7; 8; 9; 10; 11; 12; 13; 255; 255; 255; 255; 255; 255;
  2; 3; 6; 7; 8; 9; 10; 11; 12; 13; 255; 255; 255; 255; 255; 255;
  0; 1; 2; 3; 6; 7; 8; 9; 10; 11; 12; 13; 255; 255; 255; 255;
  4; 5; 6; 7; 8; 9; 10; 11; 12; 13; 255; 255; 255; 255; 255; 255;
  0; 1; 4; 5; 6; 7; 8; 9; 10; 11; 12; 13; 255; 255; 255; 255;
  2; 3; 4; 5; 6; 7; 8; 9; 10; 11; 12; 13; 255; 255; 255; 255;
  0; 1; 2; 3; 4; 5; 6; 7; 8; 9; 10; 11; 12; 13; 255; 255;
  14; 15; 255; 255; 255; 255; 255; 255; 255; 255; 255; 255; 255; 255; 255; 255;
  0; 1; 14; 15; 255; 255; 255; 255; 255; 255; 255; 255; 255; 255; 255; 255;
  2; 3; 14; 15; 255; 255; 255; 255; 255; 255; 255; 255; 255; 255; 255; 255;
  0; 1; 2; 3; 14; 15; 255; 255; 255; 255; 255; 255; 255; 255; 255; 255;
  4; 5; 14; 15; 255; 255; 255; 255; 255; 255; 255; 255; 255; 255; 255; 255;
  0; 1; 4; 5; 14; 15; 255; 255; 255; 255; 255; 255; 255; 255; 255; 255;
  2; 3; 4; 5; 14; 15; 255; 255; 255; 255; 255; 255; 255; 255; 255; 255;
  0; 1; 2; 3; 4; 5; 14; 15; 255; 255; 255; 255; 255; 255; 255; 255;
  6; 7; 14; 15; 255; 255; 255; 255; 255; 255; 255; 255; 255; 255; 255; 255;
  0; 1; 6; 7; 14; 15; 255; 255; 255; 255; 255; 255; 255; 255; 255; 255;
  2; 3; 6; 7; 14; 15; 255; 255; 255; 255; 255; 255; 255; 255; 255; 255;
  0; 1; 2; 3; 6; 7; 14; 15; 255; 255; 255; 255; 255; 255; 255; 255;
  4; 5; 6; 7; 14; 15; 255; 255; 255; 255; 255; 255; 255; 255; 255; 255;
  0; 1; 4; 5; 6; 7; 14; 15; 255; 255; 255; 255; 255; 255; 255; 255;
  2; 3; 4; 5; 6; 7; 14; 15; 255; 255; 255; 255; 255; 255; 255; 255;
  0; 1; 2; 3; 4; 5; 6; 7; 14; 15; 255; 255; 255; 255; 255; 255;
  8; 9; 14; 15; 255; 255; 255; 255; 255; 255; 255; 255; 255; 255; 255; 255;
  0; 1; 8; 9; 14; 15; 255; 255; 255; 255; 255; 255; 255; 255; 255; 255;
  2; 3; 8; 9; 14; 15; 255; 255; 255; 255; 255; 255; 255; 255; 255; 255;
  0; 1; 2; 3; 8; 9; 14; 15; 255; 255; 255; 255; 255; 255; 255; 255;
  4; 5; 8; 9; 14; 15; 255; 255; 255; 255; 255; 255; 255; 255; 255; 255;
  0; 1; 4; 5; 8; 9; 14; 15; 255; 255; 255; 255; 255; 255; 255; 255;
  2; 3; 4; 5; 8; 9; 14; 15; 255; 255; 255; 255; 255; 255; 255; 255;
  0; 1; 2; 3; 4; 5; 8; 9; 14; 15; 255; 255; 255; 255; 255; 255;
  6; 7; 8; 9; 14; 15; 255; 255; 255; 255; 255; 255; 255; 255; 255; 255;
  0; 1; 6; 7; 8; 9; 14; 15; 255; 255; 255; 255; 255; 255; 255; 255;
  2; 3; 6; 7; 8; 9; 14; 15; 255; 255; 255; 255; 255; 255; 255; 255;
  0; 1; 2; 3; 6; 7; 8; 9; 14; 15; 255; 255; 255; 255; 255; 255;
  4; 5; 6; 7; 8; 9; 14; 15; 255; 255; 255; 255; 255; 255; 255; 255;
  0; 1; 4; 5; 6; 7; 8; 9; 14; 15; 255; 255; 255; 255; 255; 255;
  2; 3; 4; 5; 6; 7; 8; 9; 14; 15; 255; 255; 255; 255; 255; 255;
  0; 1; 2; 3; 4; 5; 6; 7; 8; 9; 14; 15; 255; 255; 255; 255;
  10; 11; 14; 15; 255; 255; 255; 255; 255; 255; 255; 255; 255; 255; 255; 255;
  0; 1; 10; 11; 14; 15; 255; 255; 255; 255; 255; 255; 255; 255; 255; 255;
  2; 3; 10; 11; 14; 15; 255; 255; 255; 255; 255; 255; 255; 255; 255; 255;
  0; 1; 2; 3; 10; 11; 14; 15; 255; 255; 255; 255; 255; 255; 255; 255;
  4; 5; 10; 11; 14; 15; 255; 255; 255; 255; 255; 255; 255; 255; 255; 255;
  0; 1; 4; 5; 10; 11; 14; 15; 255; 255; 255; 255; 255; 255; 255; 255;
  2; 3; 4; 5; 10; 11; 14; 15; 255; 255; 255; 255; 255; 255; 255; 255;
  0; 1; 2; 3; 4; 5; 10; 11; 14; 15; 255; 255; 255; 255; 255; 255;
  6; 7; 10; 11; 14; 15; 255; 255; 255; 255; 255; 255; 255; 255; 255; 255;
  0; 1; 6; 7; 10; 11; 14; 15; 255; 255; 255; 255; 255; 255; 255; 255;
  2; 3; 6; 7; 10; 11; 14; 15; 255; 255; 255; 255; 255; 255; 255; 255;
  0; 1; 2; 3; 6; 7; 10; 11; 14; 15; 255; 255; 255; 255; 255; 255;
  4; 5; 6; 7; 10; 11; 14; 15; 255; 255; 255; 255; 255; 255; 255; 255;
  0; 1; 4; 5; 6; 7; 10; 11; 14; 15; 255; 255; 255; 255; 255; 255;
  2; 3; 4; 5; 6; 7; 10; 11; 14; 15; 255; 255; 255; 255; 255; 255;
  0; 1; 2; 3; 4; 5; 6; 7; 10; 11; 14; 15; 255; 255; 255; 255;
  8; 9; 10; 11; 14; 15; 255; 255; 255; 255; 255; 255; 255; 255; 255; 255;
  0; 1; 8; 9; 10; 11; 14; 15; 255; 255; 255; 255; 255; 255; 255; 255;
  2; 3; 8; 9; 10; 11; 14; 15; 255; 255; 255; 255; 255; 255; 255; 255;
  0; 1; 2; 3; 8; 9; 10; 11; 14; 15; 255; 255; 255; 255; 255; 255;
  4; 5; 8; 9; 10; 11; 14; 15; 255; 255; 255; 255; 255; 255; 255; 255;
  0; 1; 4; 5; 8; 9; 10; 11; 14; 15; 255; 255; 255; 255; 255; 255;
  2; 3; 4; 5; 8; 9; 10; 11; 14; 15; 255; 255; 255; 255; 255; 255;
  0; 1; 2; 3; 4; 5; 8; 9; 10; 11; 14; 15; 255; 255; 255; 255;
  6; 7; 8; 9; 10; 11; 14; 15; 255; 255; 255; 255; 255; 255; 255; 255;
  0; 1; 6; 7; 8; 9; 10; 11; 14; 15; 255; 255; 255; 255; 255; 255;
  2; 3; 6; 7; 8; 9; 10; 11; 14; 15; 255; 255; 255; 255; 255; 255;
  0; 1; 2; 3; 6; 7; 8; 9; 10; 11; 14; 15; 255; 255; 255; 255;
  4; 5; 6; 7; 8; 9; 10; 11; 14; 15; 255; 255; 255; 255; 255; 255;
  0; 1; 4; 5; 6; 7; 8; 9; 10; 11; 14; 15; 255; 255; 255; 255;
  2; 3; 4; 5; 6; 7; 8; 9; 10; 11; 14; 15; 255; 255; 255; 255;
  0; 1; 2; 3; 4; 5; 6; 7; 8; 9; 10; 11; 14; 15; 255; 255;
  12; 13; 14; 15; 255; 255; 255; 255; 255; 255; 255; 255; 255; 255; 255; 255;
  0; 1; 12; 13; 14; 15; 255; 255; 255; 255; 255; 255; 255; 255; 255; 255;
  2; 3; 12; 13; 14; 15; 255; 255; 255; 255; 255; 255; 255; 255; 255; 255;
  0; 1; 2; 3; 12; 13; 14; 15; 255; 255; 255; 255; 255; 255; 255; 255;
  4; 5; 12; 13; 14; 15; 255; 255; 255; 255; 255; 255; 255; 255; 255; 255;
  0; 1; 4; 5; 12; 13; 14; 15; 255; 255; 255; 255; 255; 255; 255; 255;
  2; 3; 4; 5; 12; 13; 14; 15; 255; 255; 255; 255; 255; 255; 255; 255;
  0; 1; 2; 3; 4; 5; 12; 13; 14; 15; 255; 255; 255; 255; 255; 255;
  6; 7; 12; 13; 14; 15; 255; 255; 255; 255; 255; 255; 255; 255; 255; 255;
  0; 1; 6; 7; 12; 13; 14; 15; 255; 255; 255; 255; 255; 255; 255; 255;
  2; 3; 6; 7; 12; 13; 14; 15; 255; 255; 255; 255; 255; 255; 255; 255;
  0; 1; 2; 3; 6; 7; 12; 13; 14; 15; 255; 255; 255; 255; 255; 255;
  4; 5; 6; 7; 12; 13; 14; 15; 255; 255; 255; 255; 255; 255; 255; 255;
  0; 1; 4; 5; 6; 7; 12; 13; 14; 15; 255; 255; 255; 255; 255; 255;
  2; 3; 4; 5; 6; 7; 12; 13; 14; 15; 255; 255; 255; 255; 255; 255;
  0; 1; 2; 3; 4; 5; 6; 7; 12; 13; 14; 15; 255; 255; 255; 255;
  8; 9; 12; 13; 14; 15; 255; 255; 255; 255; 255; 255; 255; 255; 255; 255;
  0; 1; 8; 9; 12; 13; 14; 15; 255; 255; 255; 255; 255; 255; 255; 255;
  2; 3; 8; 9; 12; 13; 14; 15; 255; 255; 255; 255; 255; 255; 255; 255;
  0; 1; 2; 3; 8; 9; 12; 13; 14; 15; 255; 255; 255; 255; 255; 255;
  4; 5; 8; 9; 12; 13; 14; 15; 255; 255; 255; 255; 255; 255; 255; 255;
  0; 1; 4; 5; 8; 9; 12; 13; 14; 15; 255; 255; 255; 255; 255; 255;
  2; 3; 4; 5; 8; 9; 12; 13; 14; 15; 255; 255; 255; 255; 255; 255;
  0; 1; 2; 3; 4; 5; 8; 9; 12; 13; 14; 15; 255; 255; 255; 255;
  6; 7; 8; 9; 12; 13; 14; 15; 255; 255; 255; 255; 255; 255; 255; 255;
  0; 1; 6; 7; 8; 9; 12; 13; 14; 15; 255; 255; 255; 255; 255; 255;
  2; 3; 6; 7; 8; 9; 12; 13; 14; 15; 255; 255; 255; 255; 255; 255;
  0; 1; 2; 3; 6; 7; 8; 9; 12; 13; 14; 15; 255; 255; 255; 255;
  4; 5; 6; 7; 8; 9; 12; 13; 14; 15; 255; 255; 255; 255; 255; 255;
  0; 1; 4; 5; 6; 7; 8; 9; 12; 13; 14; 15; 255; 255; 255; 255;
  2; 3; 4; 5; 6; 7; 8; 9; 12; 13; 14; 15; 255; 255; 255; 255;
  0; 1; 2; 3; 4; 5; 6; 7; 8; 9; 12; 13; 14; 15; 255; 255;
  10; 11; 12; 13; 14; 15; 255; 255; 255; 255; 255; 255; 255; 255; 255; 255;
  0; 1; 10; 11; 12; 13; 14; 15; 255; 255; 255; 255; 255; 255; 255; 255;
  2; 3; 10; 11; 12; 13; 14; 15; 255; 255; 255; 255; 255; 255; 255; 255;
  0; 1; 2; 3; 10; 11; 12; 13; 14; 15; 255; 255; 255; 255; 255; 255;
  4; 5; 10; 11; 12; 13; 14; 15; 255; 255; 255; 255; 255; 255; 255; 255;
  0; 1; 4; 5; 10; 11; 12; 13; 14; 15; 255; 255; 255; 255; 255; 255;
  2; 3; 4; 5; 10; 11; 12; 13; 14; 15; 255; 255; 255; 255; 255; 255;
  0; 1; 2; 3; 4; 5; 10; 11; 12; 13; 14; 15; 255; 255; 255; 255;
  6; 7; 10; 11; 12; 13; 14; 15; 255; 255; 255; 255; 255; 255; 255; 255;
  0; 1; 6; 7; 10; 11; 12; 13; 14; 15; 255; 255; 255; 255; 255; 255;
  2; 3; 6; 7; 10; 11; 12; 13; 14; 15; 255; 255; 255; 255; 255; 255;
  0; 1; 2; 3; 6; 7; 10; 11; 12; 13; 14; 15; 255; 255; 255; 255;
  4; 5; 6; 7; 10; 11; 12; 13; 14; 15; 255; 255; 255; 255; 255; 255;
  0; 1; 4; 5; 6; 7; 10; 11; 12; 13; 14; 15; 255; 255; 255; 255;
  2; 3; 4; 5; 6; 7; 10; 11; 12; 13; 14; 15; 255; 255; 255; 255;
  0; 1; 2; 3; 4; 5; 6; 7; 10; 11; 12; 13; 14; 15; 255; 255;
  8; 9; 10; 11; 12; 13; 14; 15; 255; 255; 255; 255; 255; 255; 255; 255;
  0; 1; 8; 9; 10; 11; 12; 13; 14; 15; 255; 255; 255; 255; 255; 255;
  2; 3; 8; 9; 10; 11; 12; 13; 14; 15; 255; 255; 255; 255; 255; 255;
  0; 1; 2; 3; 8; 9; 10; 11; 12; 13; 14; 15; 255; 255; 255; 255;
  4; 5; 8; 9; 10; 11; 12; 13; 14; 15; 255; 255; 255; 255; 255; 255;
  0; 1; 4; 5; 8; 9; 10; 11; 12; 13; 14; 15; 255; 255; 255; 255;
  2; 3; 4; 5; 8; 9; 10; 11; 12; 13; 14; 15; 255; 255; 255; 255;
  0; 1; 2; 3; 4; 5; 8; 9; 10; 11; 12; 13; 14; 15; 255; 255;
  6; 7; 8; 9; 10; 11; 12; 13; 14; 15; 255; 255; 255; 255; 255; 255;
  0; 1; 6; 7; 8; 9; 10; 11; 12; 13; 14; 15; 255; 255; 255; 255;
  2; 3; 6; 7; 8; 9; 10; 11; 12; 13; 14; 15; 255; 255; 255; 255;
  0; 1; 2; 3; 6; 7; 8; 9; 10; 11; 12; 13; 14; 15; 255; 255;
  4; 5; 6; 7; 8; 9; 10; 11; 12; 13; 14; 15; 255; 255; 255; 255;
  0; 1; 4; 5; 6; 7; 8; 9; 10; 11; 12; 13; 14; 15; 255; 255;
  2; 3; 4; 5; 6; 7; 8; 9; 10; 11; 12; 13; 14; 15; 255; 255;
  0; 1; 2; 3; 4; 5; 6; 7; 8; 9; 10; 11; 12; 13; 14; 15].

(** array_util.c:1277-1619 uniqshuf *)
Definition uniqshuf : list Z :=
 [0; 1; 2; 3; 4; 5; 6; 7; 8; 9; 10; 11; 12; 13; 14; 15;
  2; 3; 4; 5; 6; 7; 8; 9; 10; 11; 12; 13; 14; 15; 255; 255;
  0; 1; 4; 5; 6; 7; 8; 9; 10; 11; 12; 13; 14; 15; 255; 255;
  4; 5; 6; 7; 8; 9; 10; 11; 12; 13; 14; 15; 255; 255; 255; 255;
  0; 1; 2; 3; 6; 7; 8; 9; 10; 11; 12; 13; 14; 15; 255; 255;
  2; 3; 6; 7; 8; 9; 10; 11; 12; 13; 14; 15; 255; 255; 255; 255;
  0; 1; 6; 7; 8; 9; 10; 11; 12; 13; 14; 15; 255; 255; 255; 255;
  6; 7; 8; 9; 10; 11; 12; 13; 14; 15; 255; 255; 255; 255; 255; 255;
  0; 1; 2; 3; 4; 5; 8; 9; 10; 11; 12; 13; 14; 15; 255; 255;
  2; 3; 4; 5; 8; 9; 10; 11; 12; 13; 14; 15; 255; 255; 255; 255;
  0; 1; 4; 5; 8; 9; 10; 11; 12; 13; 14; 15; 255; 255; 255; 255;
  4; 5; 8; 9; 10; 11; 12; 13; 14; 15; 255; 255; 255; 255; 255; 255;
  0; 1; 2; 3; 8; 9; 10; 11; 12; 13; 14; 15; 255; 255; 255; 255;
  2; 3; 8; 9; 10; 11; 12; 13; 14; 15; 255; 255; 255; 255; 255; 255;
  0; 1; 8; 9; 10; 11; 12; 13; 14; 15; 255; 255; 255; 255; 255; 255;
  8; 9; 10; 11; 12; 13; 14; 15; 255; 255; 255; 255; 255; 255; 255; 255;
  0; 1; 2; 3; 4; 5; 6; 7; 10; 11; 12; 13; 14; 15; 255; 255;
  2; 3; 4; 5; 6; 7; 10; 11; 12; 13; 14; 15; 255; 255; 255; 255;
  0; 1; 4; 5; 6; 7; 10; 11; 12; 13; 14; 15; 255; 255; 255; 255;
  4; 5; 6; 7; 10; 11; 12; 13; 14; 15; 255; 255; 255; 255; 255; 255;
  0; 1; 2; 3; 6; 7; 10; 11; 12; 13; 14; 15; 255; 255; 255; 255;
  2; 3; 6; 7; 10; 11; 12; 13; 14; 15; 255; 255; 255; 255; 255; 255;
  0; 1; 6; 7; 10; 11; 12; 13; 14; 15; 255; 255; 255; 255; 255; 255;
  6; 7; 10; 11; 12; 13; 14; 15; 255; 255; 255; 255; 255; 255; 255; 255;
  0; 1; 2; 3; 4; 5; 10; 11; 12; 13; 14; 15; 255; 255; 255; 255;
  2; 3; 4; 5; 10; 11; 12; 13; 14; 15; 255; 255; 255; 255; 255; 255;
  0; 1; 4; 5; 10; 11; 12; 13; 14; 15; 255; 255; 255; 255; 255; 255;
  4; 5; 10; 11; 12; 13; 14; 15; 255; 255; 255; 255; 255; 255; 255; 255;
  0; 1; 2; 3; 10; 11; 12; 13; 14; 15; 255; 255; 255; 255; 255; 255;
  2; 3; 10; 11; 12; 13; 14; 15; 255; 255; 255; 255; 255; 255; 255; 255;
  0; 1; 10; 11; 12; 13; 14; 15; 255; 255; 255; 255; 255; 255; 255; 255;
  10; 11; 12; 13; 14; 15; 255; 255; 255; 255; 255; 255; 255; 255; 255; 255;
  0; 1; 2; 3; 4; 5; 6; 7; 8; 9; 12; 13; 14; 15; 255; 255;
  2; 3; 4; 5; 6; 7; 8; 9; 12; 13; 14; 15; 255; 255; 255; 255;
  0; 1; 4; 5; 6; 7; 8; 9; 12; 13; 14; 15; 255; 255; 255; 255;
  4; 5; 6; 7; 8; 9; 12; 13; 14; 15; 255; 255; 255; 255; 255; 255;
  0; 1; 2; 3; 6; 7; 8; 9; 12; 13; 14; 15; 255; 255; 255; 255;
  2; 3; 6; 7; 8; 9; 12; 13; 14; 15; 255; 255; 255; 255; 255; 255;
  0; 1; 6; 7; 8; 9; 12; 13; 14; 15; 255; 255; 255; 255; 255; 255;
  6; 7; 8; 9; 12; 13; 14; 15; 255; 255; 255; 255; 255; 255; 255; 255;
  0; 1; 2; 3; 4; 5; 8; 9; 12; 13; 14; 15; 255; 255; 255; 255;
  2; 3; 4; 5; 8; 9; 12; 13; 14; 15; 255; 255; 255; 255; 255; 255;
  0; 1; 4; 5; 8; 9; 12; 13; 14; 15; 255; 255; 255; 255; 255; 255;
  4; 5; 8; 9; 12; 13; 14; 15; 255; 255; 255; 255; 255; 255; 255; 255;
  0; 1; 2; 3; 8; 9; 12; 13; 14; 15; 255; 255; 255; 255; 255; 255;
  2; 3; 8; 9; 12; 13; 14; 15; 255; 255; 255; 255; 255; 255; 255; 255;
  0; 1; 8; 9; 12; 13; 14; 15; 255; 255; 255; 255; 255; 255; 255; 255;
  8; 9; 12; 13; 14; 15; 255; 255; 255; 255; 255; 255; 255; 255; 255; 255;
  0; 1; 2; 3; 4; 5; 6; 7; 12; 13; 14; 15; 255; 255; 255; 255;
  2; 3; 4; 5; 6; 7; 12; 13; 14; 15; 255; 255; 255; 255; 255; 255;
  0; 1; 4; 5; 6; 7; 12; 13; 14; 15; 255; 255; 255; 255; 255; 255;
  4; 5; 6; 7; 12; 13; 14; 15; 255; 255; 255; 255; 255; 255; 255; 255;
  0; 1; 2; 3; 6; 7; 12; 13; 14; 15; 255; 255; 255; 255; 255; 255;
  2; 3; 6; 7; 12; 13; 14; 15; 255; 255; 255; 255; 255; 255; 255; 255;
  0; 1; 6; 7; 12; 13; 14; 15; 255; 255; 255; 255; 255; 255; 255; 255;
  6; 7; 12; 13; 14; 15; 255; 255; 255; 255; 255; 255; 255; 255; 255; 255;
  0; 1; 2; 3; 4; 5; 12; 13; 14; 15; 255; 255; 255; 255; 255; 255;
  2; 3; 4; 5; 12; 13; 14; 15; 255; 255; 255; 255; 255; 255; 255; 255;
  0; 1; 4; 5; 12; 13; 14; 15; 255; 255; 255; 255; 255; 255; 255; 255;
  4; 5; 12; 13; 14; 15; 255; 255; 255; 255; 255; 255; 255; 255; 255; 255;
  0; 1; 2; 3; 12; 13; 14; 15; 255; 255; 255; 255; 255; 255; 255; 255;
  2; 3; 12; 13; 14; 15; 255; 255; 255; 255; 255; 255; 255; 255; 255; 255;
  0; 1; 12; 13; 14; 15; 255; 255; 255; 255; 255; 255; 255; 255; 255; 255;
  12; 13; 14; 15; 255; 255; 255; 255; 255; 255; 255; 255; 255; 255; 255; 255;
  0; 1; 2; 3; 4; 5; 6; 7; 8; 9; 10; 11; 14; 15; 255; 255;
  2; 3; 4; 5; 6; 7; 8; 9; 10; 11; 14; 15; 255; 255; 255; 255;
  0; 1; 4; 5; 6; 7; 8; 9; 10; 11; 14; 15; 255; 255; 255; 255;
  4; 5; 6; 7; 8; 9; 10; 11; 14; 15; 255; 255; 255; 255; 255; 255;
  0; 1; 2; 3; 6; 7; 8; 9; 10; 11; 14; 15; 255; 255; 255; 255;
  2; 3; 6; 7; 8; 9; 10; 11; 14; 15; 255; 255; 255; 255; 255; 255;
  0; 1; 6; 7; 8; 9; 10; 11; 14; 15; 255; 255; 255; 255; 255; 255;
  6; 7; 8; 9; 10; 11; 14; 15; 255; 255; 255; 255; 255; 255; 255; 255;
  0; 1; 2; 3; 4; 5; 8; 9; 10; 11; 14; 15; 255; 255; 255; 255;
  2; 3; 4; 5; 8; 9; 10; 11; 14; 15; 255; 255; 255; 255; 255; 255;
  0; 1; 4; 5; 8; 9; 10; 11; 14; 15; 255; 255; 255; 255; 255; 255;
  4; 5; 8; 9; 10; 11; 14; 15; 255; 255; 255; 255; 255; 255; 255; 255;
  0; 1; 2; 3; 8; 9; 10; 11; 14; 15; 255; 255; 255; 255; 255; 255;
  2; 3; 8; 9; 10; 11; 14; 15; 255; 255; 255; 255; 255; 255; 255; 255;
  0; 1; 8; 9; 10; 11; 14; 15; 255; 255; 255; 255; 255; 255; 255; 255;
  8; 9; 10; 11; 14; 15; 255; 255; 255; 255; 255; 255; 255; 255; 255; 255;
  0; 1; 2; 3; 4; 5; 6; 7; 10; 11; 14; 15; 255; 255; 255; 255;
  2; 3; 4; 5; 6; 7; 10; 11; 14; 15; 255; 255; 255; 255; 255; 255;
  0; 1; 4; 5; 6; 7; 10; 11; 14; 15; 255; 255; 255; 255; 255; 255;
  4; 5; 6; 7; 10; 11; 14; 15; 255; 255; 255; 255; 255; 255; 255; 255;
  0; 1; 2; 3; 6; 7; 10; 11; 14; 15; 255; 255; 255; 255; 255; 255;
  2; 3; 6; 7; 10; 11; 14; 15; 255; 255; 255; 255; 255; 255; 255; 255;
  0; 1; 6; 7; 10; 11; 14; 15; 255; 255; 255; 255; 255; 255; 255; 255;
  6; 7; 10; 11; 14; 15; 255; 255; 255; 255; 255; 255; 255; 255; 255; 255;
  0; 1; 2; 3; 4; 5; 10; 11; 14; 15; 255; 255; 255; 255; 255; 255;
  2; 3; 4; 5; 10; 11; 14; 15; 255; 255; 255; 255; 255; 255; 255; 255;
  0; 1; 4; 5; 10; 11; 14; 15; 255; 255; 255; 255; 255; 255; 255; 255;
  4; 5; 10; 11; 14; 15; 255; 255; 255; 255; 255; 255; 255; 255; 255; 255;
  0; 1; 2; 3; 10; 11; 14; 15; 255; 255; 255; 255; 255; 255; 255; 255;
  2; 3; 10; 11; 14; 15; 255; 255; 255; 255; 255; 255; 255; 255; 255; 255;
  0; 1; 10; 11; 14; 15; 255; 255; 255; 255; 255; 255; 255; 255; 255; 255;
  10; 11; 14; 15; 255; 255; 255; 255; 255; 255; 255; 255; 255; 255; 255; 255;
  0; 1; 2; 3; 4; 5; 6; 7; 8; 9; 14; 15; 255; 255; 255; 255;
  2; 3; 4; 5; 6; 7; 8; 9; 14; 15; 255; 255; 255; 255; 255; 255;
  0; 1; 4; 5; 6; 7; 8; 9; 14; 15; 255; 255; 255; 255; 255; 255;
  4; 5; 6; 7; 8; 9; 14; 15; 255; 255; 255; 255; 255; 255; 255; 255;
  0; 1; 2; 3; 6; 7; 8; 9; 14; 15; 255; 255; 255; 255; 255; 255;
  2; 3; 6; 7; 8; 9; 14; 15; 255; 255; 255; 255; 255; 255; 255; 255;
  0; 1; 6; 7; 8; 9; 14; 15; 255; 255; 255; 255; 255; 255; 255; 255;
  6; 7; 8; 9; 14; 15; 255; 255; 255; 255; 255; 255; 255; 255; 255; 255;
  0; 1; 2; 3; 4; 5; 8; 9; 14; 15; 255; 255; 255; 255; 255; 255;
  2; 3; 4; 5; 8; 9; 14; 15; 255; 255; 255; 255; 255; 255; 255; 255;
  0; 1; 4; 5; 8; 9; 14; 15; 255; 255; 255; 255; 255; 255; 255; 255;
  4; 5; 8; 9; 14; 15; 255; 255; 255; 255; 255; 255; 255; 255; 255; 255;
  0; 1; 2; 3; 8; 9; 14; 15; 255; 255; 255; 255; 255; 255; 255; 255;
  2; 3; 8; 9; 14; 15; 255; 255; 255; 255; 255; 255; 255; 255; 255; 255;
  0; 1; 8; 9; 14; 15; 255; 255; 255; 255; 255; 255; 255; 255; 255; 255;
  8; 9; 14; 15; 255; 255; 255; 255; 255; 255; 255; 255; 255; 255; 255; 255;
  0; 1; 2; 3; 4; 5; 6; 7; 14; 15; 255; 255; 255; 255; 255; 255;
  2; 3; 4; 5; 6; 7; 14; 15; 255; 255; 255; 255; 255; 255; 255; 255;
  0; 1; 4; 5; 6; 7; 14; 15; 255; 255; 255; 255; 255; 255; 255; 255;
  4; 5; 6; 7; 14; 15; 255; 255; 255; 255; 255; 255; 255; 255; 255; 255;
  0; 1; 2; 3; 6; 7; 14; 15; 255; 255; 255; 255; 255; 255; 255; 255;
  2; 3; 6; 7; 14; 15; 255; 255; 255; 255; 255; 255; 255; 255; 255; 255;
  0; 1; 6; 7; 14; 15; 255; 255; 255; 255; 255; 255; 255; 255; 255; 255;
  6; 7; 14; 15; 255; 255; 255; 255; 255; 255; 255; 255; 255; 255; 255; 255;
  0; 1; 2; 3; 4; 5; 14; 15; 255; 255; 255; 255; 255; 255; 255; 255;
  2; 3; 4; 5; 14; 15; 255; 255; 255; 255; 255; 255; 255; 255; 255; 255;
  0; 1; 4; 5; 14; 15; 255; 255; 255; 255; 255; 255; 255; 255; 255; 255;
  4; 5; 14; 15; 255; 255; 255; 255; 255; 255; 255; 255; 255; 255; 255; 255;
  0; 1; 2; 3; 14; 15; 255; 255; 255; 255; 255; 255; 255; 255; 255; 255;
  2; 3; 14; 15; 255; 255; 255; 255; 255; 255; 255; 255; 255; 255; 255; 255;
  0; 1; 14; 15; 255; 255; 255; 255; 255; 255; 255; 255; 255; 255; 255; 255;
  14; 15; 255; 255; 255; 255; 255; 255; 255; 255; 255; 255; 255; 255; 255; 255;
  0; 1; 2; 3; 4; 5; 6; 7; 8; 9; 10; 11; 12; 13; 255; 255;
  2; 3; 4; 5; 6; 7; 8; 9; 10; 11; 12; 13; 255; 255; 255; 255;
  0; 1; 4; 5; 6; 7; 8; 9; 10; 11; 12; 13; 255; 255; 255; 255;
  4; 5; 6; 7; 8; 9; 10; 11; 12; 13; 255; 255; 255; 255; 255; 255;
  0; 1; 2; 3; 6; 7; 8; 9; 10; 11; 12; 13; 255; 255; 255; 255;
  2; 3; 6; 7; 8; 9; 10; 11; 12; 13; 255; 255; 255; 255; 255; 255;
  0; 1; 6; 7; 8; 9; 10; 11; 12; 13; 255; 255; 255; 255; 255; 255;
  6; 7; 8; 9; 10; 11; 12; 13; 255; 255; 255; 255; 255; 255; 255; 255;
  0; 1; 2; 3; 4; 5; 8; 9; 10; 11; 12; 13; 255; 255; 255; 255;
  2; 3; 4; 5; 8; 9; 10; 11; 12; 13; 255; 255; 255; 255; 255; 255;
  0; 1; 4; 5; 8; 9; 10; 11; 12; 13; 255; 255; 255; 255; 255; 255;
  4; 5; 8; 9; 10; 11; 12; 13; 255; 255; 255; 255; 255; 255; 255; 255;
  0; 1; 2; 3; 8; 9; 10; 11; 12; 13; 255; 255; 255; 255; 255; 255;
  2; 3; 8; 9; 10; 11; 12; 13; 255; 255; 255; 255; 255; 255; 255; 255;
  0; 1; 8; 9; 10; 11; 12; 13; 255; 255; 255; 255; 255; 255; 255; 255;
  8; 9; 10; 11; 12; 13; 255; 255; 255; 255; 255; 255; 255; 255; 255; 255;
  0; 1; 2; 3; 4; 5; 6; 7; 10; 11; 12; 13; 255; 255; 255; 255;
  2; 3; 4; 5; 6; 7; 10; 11; 12; 13; 255; 255; 255; 255; 255; 255;
  0; 1; 4; 5; 6; 7; 10; 11; 12; 13; 255; 255; 255; 255; 255; 255;
  4; 5; 6; 7; 10; 11; 12; 13; 255; 255; 255; 255; 255; 255; 255; 255;
  0; 1; 2; 3; 6; 7; 10; 11; 12; 13; 255; 255; 255; 255; 255; 255;
  2; 3; 6; 7; 10; 11; 12; 13; 255; 255; 255; 255; 255; 255; 255; 255;
  0; 1; 6; 7; 10; 11; 12; 13; 255; 255; 255; 255; 255; 255; 255; 255;
  6; 7; 10; 11; 12; 13; 255; 255; 255; 255; 255; 255; 255; 255; 255; 255;
  0; 1; 2; 3; 4; 5; 10; 11; 12; 13; 255; 255; 255; 255; 255; 255;
  2; 3; 4; 5; 10; 11; 12; 13; 255; 255; 255; 255; 255; 255; 255; 255;
  0; 1; 4; 5; 10; 11; 12; 13; 255; 255; 255; 255; 255; 255; 255; 255;
  4; 5; 10; 11; 12; 13; 255; 255; 255; 255; 255; 255; 255; 255; 255; 255;
  0; 1; 2; 3; 10; 11; 12; 13; 255; 255; 255; 255; 255; 255; 255; 255;
  2; 3; 10; 11; 12; 13; 255; 255; 255; 255; 255; 255; 255; 255; 255; 255;
  0; 1; 10; 11; 12; 13; 255; 255; 255; 255; 255; 255; 255; 255; 255; 255;
  10; 11; 12; 13; 255; 255; 255; 255; 255; 255; 255; 255; 255; 255; 255; 255;
  0; 1; 2; 3; 4; 5; 6; 7; 8; 9; 12; 13; 255; 255; 255; 255;
  2; 3; 4; 5; 6; 7; 8; 9; 12; 13; 255; 255; 255; 255; 255; 255;
  0; 1; 4; 5; 6; 7; 8; 9; 12; 13; 255; 255; 255; 255; 255; 255;
  4; 5; 6; 7; 8; 9; 12; 13; 255; 255; 255; 255; 255; 255; 255; 255;
  0; 1; 2; 3; 6; 7; 8; 9; 12; 13; 255; 255; 255; 255; 255; 255;
  2; 3; 6; 7; 8; 9; 12; 13; 255; 255; 255; 255; 255; 255; 255; 255;
  0; 1; 6; 7; 8; 9; 12; 13; 255; 255; 255; 255; 255; 255; 255; 255;
  6; 7; 8; 9; 12; 13; 255; 255; 255; 255; 255; 255; 255; 255; 255; 255;
  0; 1; 2; 3; 4; 5; 8; 9; 12; 13; 255; 255; 255; 255; 255; 255;
  2; 3; 4; 5; 8; 9; 12; 13; 255; 255; 255; 255; 255; 255; 255; 255;
  0; 1; 4; 5; 8; 9; 12; 13; 255; 255; 255; 255; 255; 255; 255; 255;
  4; 5; 8; 9; 12; 13; 255; 255; 255; 255; 255; 255; 255; 255; 255; 255;
  0; 1; 2; 3; 8; 9; 12; 13; 255; 255; 255; 255; 255; 255; 255; 255;
  2; 3; 8; 9; 12; 13; 255; 255; 255; 255; 255; 255; 255; 255; 255; 255;
  0; 1; 8; 9; 12; 13; 255; 255; 255; 255; 255; 255; 255; 255; 255; 255;
  8; 9; 12; 13; 255; 255; 255; 255; 255; 255; 255; 255; 255; 255; 255; 255;
  0; 1; 2; 3; 4; 5; 6; 7; 12; 13; 255; 255; 255; 255; 255; 255;
  2; 3; 4; 5; 6; 7; 12; 13; 255; 255; 255; 255; 255; 255; 255; 255;
  0; 1; 4; 5; 6; 7; 12; 13; 255; 255; 255; 255; 255; 255; 255; 255;
  4; 5; 6; 7; 12; 13; 255; 255; 255; 255; 255; 255; 255; 255; 255; 255;
  0; 1; 2; 3; 6; 7; 12; 13; 255; 255; 255; 255; 255; 255; 255; 255;
  2; 3; 6; 7; 12; 13; 255; 255; 255; 255; 255; 255; 255; 255; 255; 255;
  0; 1; 6; 7; 12; 13; 255; 255; 255; 255; 255; 255; 255; 255; 255; 255;
  6; 7; 12; 13; 255; 255; 255; 255; 255; 255; 255; 255; 255; 255; 255; 255;
  0; 1; 2; 3; 4; 5; 12; 13; 255; 255; 255; 255; 255; 255; 255; 255;
  2; 3; 4; 5; 12; 13; 255; 255; 255; 255; 255; 255; 255; 255; 255; 255;
  0; 1; 4; 5; 12; 13; 255; 255; 255; 255; 255; 255; 255; 255; 255; 255;
  4; 5; 12; 13; 255; 255; 255; 255; 255; 255; 255; 255; 255; 255; 255; 255;
  0; 1; 2; 3; 12; 13; 255; 255; 255; 255; 255; 255; 255; 255; 255; 255;
  2; 3; 12; 13; 255; 255; 255; 255; 255; 255; 255; 255; 255; 255; 255; 255;
  0; 1; 12; 13; 255; 255; 255; 255; 255; 255; 255; 255; 255; 255; 255; 255;
  12; 13; 255; 255; 255; 255; 255; 255; 255; 255; 255; 255; 255; 255; 255; 255;
  0; 1; 2; 3; 4; 5; 6; 7; 8; 9; 10; 11; 255; 255; 255; 255;
  2; 3; 4; 5; 6; 7; 8; 9; 10; 11; 255; 255; 255; 255; 255; 255;
  0; 1; 4; 5; 6; 7; 8; 9; 10; 11; 255; 255; 255; 255; 255; 255;
  4; 5; 6; 7; 8; 9; 10; 11; 255; 255; 255; 255; 255; 255; 255; 255;
  0; 1; 2; 3; 6; 7; 8; 9; 10; 11; 255; 255; 255; 255; 255; 255;
  2; 3; 6; 7; 8; 9; 10; 11; 255; 255; 255; 255; 255; 255; 255; 255;
  0; 1; 6; 7; 8; 9; 10; 11; 255; 255; 255; 255; 255; 255; 255; 255;
  6; 7; 8; 9; 10; 11; 255; 255; 255; 255; 255; 255; 255; 255; 255; 255;
  0; 1; 2; 3; 4; 5; 8; 9; 10; 11; 255; 255; 255; 255; 255; 255;
  2; 3; 4; 5; 8; 9; 10; 11; 255; 255; 255; 255; 255; 255; 255; 255;
  0; 1; 4; 5; 8; 9; 10; 11; 255; 255; 255; 255; 255; 255; 255; 255;
  4; 5; 8; 9; 10; 11; 255; 255; 255; 255; 255; 255; 255; 255; 255; 255;
  0; 1; 2; 3; 8; 9; 10; 11; 255; 255; 255; 255; 255; 255; 255; 255;
  2; 3; 8; 9; 10; 11; 255; 255; 255; 255; 255; 255; 255; 255; 255; 255;
  0; 1; 8; 9; 10; 11; 255; 255; 255; 255; 255; 255; 255; 255; 255; 255;
  8; 9; 10; 11; 255; 255; 255; 255; 255; 255; 255; 255; 255; 255; 255; 255;
  0; 1; 2; 3; 4; 5; 6; 7; 10; 11; 255; 255; 255; 255; 255; 255;
  2; 3; 4; 5; 6; 7; 10; 11; 255; 255; 255; 255; 255; 255; 255; 255;
  0; 1; 4; 5; 6; 7; 10; 11; 255; 255; 255; 255; 255; 255; 255; 255;
  4; 5; 6; 7; 10; 11; 255; 255; 255; 255; 255; 255; 255; 255; 255; 255;
  0; 1; 2; 3; 6; 7; 10; 11; 255; 255; 255; 255; 255; 255; 255; 255;
  2; 3; 6; 7; 10; 11; 255; 255; 255; 255; 255; 255; 255; 255; 255; 255;
  0; 1; 6; 7; 10; 11; 255; 255; 255; 255; 255; 255; 255; 255; 255; 255;
  6; 7; 10; 11; 255; 255; 255; 255; 255; 255; 255; 255; 255; 255; 255; 255;
  0; 1; 2; 3; 4; 5; 10; 11; 255; 255; 255; 255; 255; 255; 255; 255;
  2; 3; 4; 5; 10; 11; 255; 255; 255; 255; 255; 255; 255; 255; 255; 255;
  0; 1; 4; 5; 10; 11; 255; 255; 255; 255; 255; 255; 255; 255; 255; 255;
  4; 5; 10; 11; 255; 255; 255; 255; 255; 255; 255; 255; 255; 255; 255; 255;
  0; 1; 2; 3; 10; 11; 255; 255; 255; 255; 255; 255; 255; 255; 255; 255;
  2; 3; 10; 11; 255; 255; 255; 255; 255; 255; 255; 255; 255; 255; 255; 255;
  0; 1; 10; 11; 255; 255; 255; 255; 255; 255; 255; 255; 255; 255; 255; 255;
  10; 11; 255; 255; 255; 255; 255; 255; 255; 255; 255; 255; 255; 255; 255; 255;
  0; 1; 2; 3; 4; 5; 6; 7; 8; 9; 255; 255; 255; 255; 255; 255;
  2; 3; 4; 5; 6; 7; 8; 9; 255; 255; 255; 255; 255; 255; 255; 255;
  0; 1; 4; 5; 6; 7; 8; 9; 255; 255; 255; 255; 255; 255; 255; 255;
  4; 5; 6; 7; 8; 9; 255; 255; 255; 255; 255; 255; 255; 255; 255; 255;
  0; 1; 2; 3; 6; 7; 8; 9; 255; 255; 255; 255; 255; 255; 255; 255;
  2; 3; 6; 7; 8; 9; 255; 255; 255; 255; 255; 255; 255; 255; 255; 255;
  0; 1; 6; 7; 8; 9; 255; 255; 255; 255; 255; 255; 255; 255; 255; 255;
  6; 7; 8; 9; 255; 255; 255; 255; 255; 255; 255; 255; 255; 255; 255; 255;
  0; 1; 2; 3; 4; 5; 8; 9; 255; 255; 255; 255; 255; 255; 255; 255;
  2; 3; 4; 5; 8; 9; 255; 255; 255; 255; 255; 255; 255; 255; 255; 255;
  0; 1; 4; 5; 8; 9; 255; 255; 255; 255; 255; 255; 255; 255; 255; 255;
  4; 5; 8; 9; 255; 255; 255; 255; 255; 255; 255; 255; 255; 255; 255; 255;
  0; 1; 2; 3; 8; 9; 255; 255; 255; 255; 255; 255; 255; 255; 255; 255;
  2; 3; 8; 9; 255; 255; 255; 255; 255; 255; 255; 255; 255; 255; 255; 255;
  0; 1; 8; 9; 255; 255; 255; 255; 255; 255; 255; 255; 255; 255; 255; 255;
  8; 9; 255; 255; 255; 255; 255; 255; 255; 255; 255; 255; 255; 255; 255; 255;
  0; 1; 2; 3; 4; 5; 6; 7; 255; 255; 255; 255; 255; 255; 255; 255;
  2; 3; 4; 5; 6; 7; 255; 255; 255; 255; 255; 255; 255; 255; 255; 255;
  0; 1; 4; 5; 6; 7; 255; 255; 255; 255; 255; 255; 255; 255; 255; 255;
  4; 5; 6; 7; 255; 255; 255; 255; 255; 255; 255; 255; 255; 255; 255; 255;
  0; 1; 2; 3; 6; 7; 255; 255; 255; 255; 255; 255; 255; 255; 255; 255;
  2; 3; 6; 7; 255; 255; 255; 255; 255; 255; 255; 255; 255; 255; 255; 255;
  0; 1; 6; 7; 255; 255; 255; 255; 255; 255; 255; 255; 255; 255; 255; 255;
  6; 7; 255; 255; 255; 255; 255; 255; 255; 255; 255; 255; 255; 255; 255; 255;
  0; 1; 2; 3; 4; 5; 255; 255; 255; 255; 255; 255; 255; 255; 255; 255;
  2; 3; 4; 5; 255; 255; 255; 255; 255; 255; 255; 255; 255; 255; 255; 255;
  0; 1; 4; 5; 255; 255; 255; 255; 255; 255; 255; 255; 255; 255; 255; 255;
  4; 5; 255; 255; 255; 255; 255; 255; 255; 255; 255; 255; 255; 255; 255; 255;
  0; 1; 2; 3; 255; 255; 255; 255; 255; 255; 255; 255; 255; 255; 255; 255;
  2; 3; 255; 255; 255; 255; 255; 255; 255; 255; 255; 255; 255; 255; 255; 255;
  0; 1; 255; 255; 255; 255; 255; 255; 255; 255; 255; 255; 255; 255; 255; 255;
  255; 255; 255; 255; 255; 255; 255; 255; 255; 255; 255; 255; 255; 255; 255; 255].

(** bitset_util.c:27-38 lengthTable *)
Definition lengthTable : list Z :=
 [0; 1; 1; 2; 1; 2; 2; 3; 1; 2; 2; 3; 2; 3; 3; 4;
  1; 2; 2; 3; 2; 3; 3; 4; 2; 3; 3; 4; 3; 4; 4; 5;
  1; 2; 2; 3; 2; 3; 3; 4; 2; 3; 3; 4; 3; 4; 4; 5;
  2; 3; 3; 4; 3; 4; 4; 5; 3; 4; 4; 5; 4; 5; 5; 6;
  1; 2; 2; 3; 2; 3; 3; 4; 2; 3; 3; 4; 3; 4; 4; 5;
  2; 3; 3; 4; 3; 4; 4; 5; 3; 4; 4; 5; 4; 5; 5; 6;
  2; 3; 3; 4; 3; 4; 4; 5; 3; 4; 4; 5; 4; 5; 5; 6;
  3; 4; 4; 5; 4; 5; 5; 6; 4; 5; 5; 6; 5; 6; 6; 7;
  1; 2; 2; 3; 2; 3; 3; 4; 2; 3; 3; 4; 3; 4; 4; 5;
  2; 3; 3; 4; 3; 4; 4; 5; 3; 4; 4; 5; 4; 5; 5; 6;
  2; 3; 3; 4; 3; 4; 4; 5; 3; 4; 4; 5; 4; 5; 5; 6;
  3; 4; 4; 5; 4; 5; 5; 6; 4; 5; 5; 6; 5; 6; 6; 7;
  2; 3; 3; 4; 3; 4; 4; 5; 3; 4; 4; 5; 4; 5; 5; 6;
  3; 4; 4; 5; 4; 5; 5; 6; 4; 5; 5; 6; 5; 6; 6; 7;
  3; 4; 4; 5; 4; 5; 5; 6; 4; 5; 5; 6; 5; 6; 6; 7;
  4; 5; 5; 6; 5; 6; 6; 7; 5; 6; 6; 7; 6; 7; 7; 8].

(** bitset_util.c:43-300 vecDecodeTable *)
Definition vecDecodeTable : list Z :=
 [0; 0; 0; 0; 0; 0; 0; 0;
  1; 0; 0; 0; 0; 0; 0; 0;
  2; 0; 0; 0; 0; 0; 0; 0;
  1; 2; 0; 0; 0; 0; 0; 0;
  3; 0; 0; 0; 0; 0; 0; 0;
  1; 3; 0; 0; 0; 0; 0; 0;
  2; 3; 0; 0; 0; 0; 0; 0;
  1; 2; 3; 0; 0; 0; 0; 0;
  4; 0; 0; 0; 0; 0; 0; 0;
  1; 4; 0; 0; 0; 0; 0; 0;
  2; 4; 0; 0; 0; 0; 0; 0;
  1; 2; 4; 0; 0; 0; 0; 0;
  3; 4; 0; 0; 0; 0; 0; 0;
  1; 3; 4; 0; 0; 0; 0; 0;
  2; 3; 4; 0; 0; 0; 0; 0;
  1; 2; 3; 4; 0; 0; 0; 0;
  5; 0; 0; 0; 0; 0; 0; 0;
  1; 5; 0; 0; 0; 0; 0; 0;
  2; 5; 0; 0; 0; 0; 0; 0;
  1; 2; 5; 0; 0; 0; 0; 0;
  3; 5; 0; 0; 0; 0; 0; 0;
  1; 3; 5; 0; 0; 0; 0; 0;
  2; 3; 5; 0; 0; 0; 0; 0;
  1; 2; 3; 5; 0; 0; 0; 0;
  4; 5; 0; 0; 0; 0; 0; 0;
  1; 4; 5; 0; 0; 0; 0; 0;
  2; 4; 5; 0; 0; 0; 0; 0;
  1; 2; 4; 5; 0; 0; 0; 0;
  3; 4; 5; 0; 0; 0; 0; 0;
  1; 3; 4; 5; 0; 0; 0; 0;
  2; 3; 4; 5; 0; 0; 0; 0;
  1; 2; 3; 4; 5; 0; 0; 0;
  6; 0; 0; 0; 0; 0; 0; 0;
  1; 6; 0; 0; 0; 0; 0; 0;
  2; 6; 0; 0; 0; 0; 0; 0;
  1; 2; 6; 0; 0; 0; 0; 0;
  3; 6; 0; 0; 0; 0; 0; 0;
  1; 3; 6; 0; 0; 0; 0; 0;
  2; 3; 6; 0; 0; 0; 0; 0;
  1; 2; 3; 6; 0; 0; 0; 0;
  4; 6; 0; 0; 0; 0; 0; 0;
  1; 4; 6; 0; 0; 0; 0; 0;
  2; 4; 6; 0; 0; 0; 0; 0;
  1; 2; 4; 6; 0; 0; 0; 0;
  3; 4; 6; 0; 0; 0; 0; 0;
  1; 3; 4; 6; 0; 0; 0; 0;
  2; 3; 4; 6; 0; 0; 0; 0;
  1; 2; 3; 4; 6; 0; 0; 0;
  5; 6; 0; 0; 0; 0; 0; 0;
  1; 5; 6; 0; 0; 0; 0; 0;
  2; 5; 6; 0; 0; 0; 0; 0;
  1; 2; 5; 6; 0; 0; 0; 0;
  3; 5; 6; 0; 0; 0; 0; 0;
  1; 3; 5; 6; 0; 0; 0; 0;
  2; 3; 5; 6; 0; 0; 0; 0;
  1; 2; 3; 5; 6; 0; 0; 0;
  4; 5; 6; 0; 0; 0; 0; 0;
  1; 4; 5; 6; 0; 0; 0; 0;
  2; 4; 5; 6; 0; 0; 0; 0;
  1; 2; 4; 5; 6; 0; 0; 0;
  3; 4; 5; 6; 0; 0; 0; 0;
  1; 3; 4; 5; 6; 0; 0; 0;
  2; 3; 4; 5; 6; 0; 0; 0;
  1; 2; 3; 4; 5; 6; 0; 0;
  7; 0; 0; 0; 0; 0; 0; 0;
  1; 7; 0; 0; 0; 0; 0; 0;
  2; 7; 0; 0; 0; 0; 0; 0;
  1; 2; 7; 0; 0; 0; 0; 0;
  3; 7; 0; 0; 0; 0; 0; 0;
  1; 3; 7; 0; 0; 0; 0; 0;
  2; 3; 7; 0; 0; 0; 0; 0;
  1; 2; 3; 7; 0; 0; 0; 0;
  4; 7; 0; 0; 0; 0; 0; 0;
  1; 4; 7; 0; 0; 0; 0; 0;
  2; 4; 7; 0; 0; 0; 0; 0;
  1; 2; 4; 7; 0; 0; 0; 0;
  3; 4; 7; 0; 0; 0; 0; 0;
  1; 3; 4; 7; 0; 0; 0; 0;
  2; 3; 4; 7; 0; 0; 0; 0;
  1; 2; 3; 4; 7; 0; 0; 0;
  5; 7; 0; 0; 0; 0; 0; 0;
  1; 5; 7; 0; 0; 0; 0; 0;
  2; 5; 7; 0; 0; 0; 0; 0;
  1; 2; 5; 7; 0; 0; 0; 0;
  3; 5; 7; 0; 0; 0; 0; 0;
  1; 3; 5; 7; 0; 0; 0; 0;
  2; 3; 5; 7; 0; 0; 0; 0;
  1; 2; 3; 5; 7; 0; 0; 0;
  4; 5; 7; 0; 0; 0; 0; 0;
  1; 4; 5; 7; 0; 0; 0; 0;
  2; 4; 5; 7; 0; 0; 0; 0;
  1; 2; 4; 5; 7; 0; 0; 0;
  3; 4; 5; 7; 0; 0; 0; 0;
  1; 3; 4; 5; 7; 0; 0; 0;
  2; 3; 4; 5; 7; 0; 0; 0;
  1; 2; 3; 4; 5; 7; 0; 0;
  6; 7; 0; 0; 0; 0; 0; 0;
  1; 6; 7; 0; 0; 0; 0; 0;
  2; 6; 7; 0; 0; 0; 0; 0;
  1; 2; 6; 7; 0; 0; 0; 0;
  3; 6; 7; 0; 0; 0; 0; 0;
  1; 3; 6; 7; 0; 0; 0; 0;
  2; 3; 6; 7; 0; 0; 0; 0;
  1; 2; 3; 6; 7; 0; 0; 0;
  4; 6; 7; 0; 0; 0; 0; 0;
  1; 4; 6; 7; 0; 0; 0; 0;
  2; 4; 6; 7; 0; 0; 0; 0;
  1; 2; 4; 6; 7; 0; 0; 0;
  3; 4; 6; 7; 0; 0; 0; 0;
  1; 3; 4; 6; 7; 0; 0; 0;
  2; 3; 4; 6; 7; 0; 0; 0;
  1; 2; 3; 4; 6; 7; 0; 0;
  5; 6; 7; 0; 0; 0; 0; 0;
  1; 5; 6; 7; 0; 0; 0; 0;
  2; 5; 6; 7; 0; 0; 0; 0;
  1; 2; 5; 6; 7; 0; 0; 0;
  3; 5; 6; 7; 0; 0; 0; 0;
  1; 3; 5; 6; 7; 0; 0; 0;
  2; 3; 5; 6; 7; 0; 0; 0;
  1; 2; 3; 5; 6; 7; 0; 0;
  4; 5; 6; 7; 0; 0; 0; 0;
  1; 4; 5; 6; 7; 0; 0; 0;
  2; 4; 5; 6; 7; 0; 0; 0;
  1; 2; 4; 5; 6; 7; 0; 0;
  3; 4; 5; 6; 7; 0; 0; 0;
  1; 3; 4; 5; 6; 7; 0; 0;
  2; 3; 4; 5; 6; 7; 0; 0;
  1; 2; 3; 4; 5; 6; 7; 0;
  8; 0; 0; 0; 0; 0; 0; 0;
  1; 8; 0; 0; 0; 0; 0; 0;
  2; 8; 0; 0; 0; 0; 0; 0;
  1; 2; 8; 0; 0; 0; 0; 0;
  3; 8; 0; 0; 0; 0; 0; 0;
  1; 3; 8; 0; 0; 0; 0; 0;
  2; 3; 8; 0; 0; 0; 0; 0;
  1; 2; 3; 8; 0; 0; 0; 0;
  4; 8; 0; 0; 0; 0; 0; 0;
  1; 4; 8; 0; 0; 0; 0; 0;
  2; 4; 8; 0; 0; 0; 0; 0;
  1; 2; 4; 8; 0; 0; 0; 0;
  3; 4; 8; 0; 0; 0; 0; 0;
  1; 3; 4; 8; 0; 0; 0; 0;
  2; 3; 4; 8; 0; 0; 0; 0;
  1; 2; 3; 4; 8; 0; 0; 0;
  5; 8; 0; 0; 0; 0; 0; 0;
  1; 5; 8; 0; 0; 0; 0; 0;
  2; 5; 8; 0; 0; 0; 0; 0;
  1; 2; 5; 8; 0; 0; 0; 0;
  3; 5; 8; 0; 0; 0; 0; 0;
  1; 3; 5; 8; 0; 0; 0; 0;
  2; 3; 5; 8; 0; 0; 0; 0;
  1; 2; 3; 5; 8; 0; 0; 0;
  4; 5; 8; 0; 0; 0; 0; 0;
  1; 4; 5; 8; 0; 0; 0; 0;
  2; 4; 5; 8; 0; 0; 0; 0;
  1; 2; 4; 5; 8; 0; 0; 0;
  3; 4; 5; 8; 0; 0; 0; 0;
  1; 3; 4; 5; 8; 0; 0; 0;
  2; 3; 4; 5; 8; 0; 0; 0;
  1; 2; 3; 4; 5; 8; 0; 0;
  6; 8; 0; 0; 0; 0; 0; 0;
  1; 6; 8; 0; 0; 0; 0; 0;
  2; 6; 8; 0; 0; 0; 0; 0;
  1; 2; 6; 8; 0; 0; 0; 0;
  3; 6; 8; 0; 0; 0; 0; 0;
  1; 3; 6; 8; 0; 0; 0; 0;
  2; 3; 6; 8; 0; 0; 0; 0;
  1; 2; 3; 6; 8; 0; 0; 0;
  4; 6; 8; 0; 0; 0; 0; 0;
  1; 4; 6; 8; 0; 0; 0; 0;
  2; 4; 6; 8; 0; 0; 0; 0;
  1; 2; 4; 6; 8; 0; 0; 0;
  3; 4; 6; 8; 0; 0; 0; 0;
  1; 3; 4; 6; 8; 0; 0; 0;
  2; 3; 4; 6; 8; 0; 0; 0;
  1; 2; 3; 4; 6; 8; 0; 0;
  5; 6; 8; 0; 0; 0; 0; 0;
  1; 5; 6; 8; 0; 0; 0; 0;
  2; 5; 6; 8; 0; 0; 0; 0;
  1; 2; 5; 6; 8; 0; 0; 0;
  3; 5; 6; 8; 0; 0; 0; 0;
  1; 3; 5; 6; 8; 0; 0; 0;
  2; 3; 5; 6; 8; 0; 0; 0;
  1; 2; 3; 5; 6; 8; 0; 0;
  4; 5; 6; 8; 0; 0; 0; 0;
  1; 4; 5; 6; 8; 0; 0; 0;
  2; 4; 5; 6; 8; 0; 0; 0;
  1; 2; 4; 5; 6; 8; 0; 0;
  3; 4; 5; 6; 8; 0; 0; 0;
  1; 3; 4; 5; 6; 8; 0; 0;
  2; 3; 4; 5; 6; 8; 0; 0;
  1; 2; 3; 4; 5; 6; 8; 0;
  7; 8; 0; 0; 0; 0; 0; 0;
  1; 7; 8; 0; 0; 0; 0; 0;
  2; 7; 8; 0; 0; 0; 0; 0;
  1; 2; 7; 8; 0; 0; 0; 0;
  3; 7; 8; 0; 0; 0; 0; 0;
  1; 3; 7; 8; 0; 0; 0; 0;
  2; 3; 7; 8; 0; 0; 0; 0;
  1; 2; 3; 7; 8; 0; 0; 0;
  4; 7; 8; 0; 0; 0; 0; 0;
  1; 4; 7; 8; 0; 0; 0; 0;
  2; 4; 7; 8; 0; 0; 0; 0;
  1; 2; 4; 7; 8; 0; 0; 0;
  3; 4; 7; 8; 0; 0; 0; 0;
  1; 3; 4; 7; 8; 0; 0; 0;
  2; 3; 4; 7; 8; 0; 0; 0;
  1; 2; 3; 4; 7; 8; 0; 0;
  5; 7; 8; 0; 0; 0; 0; 0;
  1; 5; 7; 8; 0; 0; 0; 0;
  2; 5; 7; 8; 0; 0; 0; 0;
  1; 2; 5; 7; 8; 0; 0; 0;
  3; 5; 7; 8; 0; 0; 0; 0;
  1; 3; 5; 7; 8; 0; 0; 0;
  2; 3; 5; 7; 8; 0; 0; 0;
  1; 2; 3; 5; 7; 8; 0; 0;
  4; 5; 7; 8; 0; 0; 0; 0;
  1; 4; 5; 7; 8; 0; 0; 0;
  2; 4; 5; 7; 8; 0; 0; 0;
  1; 2; 4; 5; 7; 8; 0; 0;
  3; 4; 5; 7; 8; 0; 0; 0;
  1; 3; 4; 5; 7; 8; 0; 0;
  2; 3; 4; 5; 7; 8; 0; 0;
  1; 2; 3; 4; 5; 7; 8; 0;
  6; 7; 8; 0; 0; 0; 0; 0;
  1; 6; 7; 8; 0; 0; 0; 0;
  2; 6; 7; 8; 0; 0; 0; 0;
  1; 2; 6; 7; 8; 0; 0; 0;
  3; 6; 7; 8; 0; 0; 0; 0;
  1; 3; 6; 7; 8; 0; 0; 0;
  2; 3; 6; 7; 8; 0; 0; 0;
  1; 2; 3; 6; 7; 8; 0; 0;
  4; 6; 7; 8; 0; 0; 0; 0;
  1; 4; 6; 7; 8; 0; 0; 0;
  2; 4; 6; 7; 8; 0; 0; 0;
  1; 2; 4; 6; 7; 8; 0; 0;
  3; 4; 6; 7; 8; 0; 0; 0;
  1; 3; 4; 6; 7; 8; 0; 0;
  2; 3; 4; 6; 7; 8; 0; 0;
  1; 2; 3; 4; 6; 7; 8; 0;
  5; 6; 7; 8; 0; 0; 0; 0;
  1; 5; 6; 7; 8; 0; 0; 0;
  2; 5; 6; 7; 8; 0; 0; 0;
  1; 2; 5; 6; 7; 8; 0; 0;
  3; 5; 6; 7; 8; 0; 0; 0;
  1; 3; 5; 6; 7; 8; 0; 0;
  2; 3; 5; 6; 7; 8; 0; 0;
  1; 2; 3; 5; 6; 7; 8; 0;
  4; 5; 6; 7; 8; 0; 0; 0;
  1; 4; 5; 6; 7; 8; 0; 0;
  2; 4; 5; 6; 7; 8; 0; 0;
  1; 2; 4; 5; 6; 7; 8; 0;
  3; 4; 5; 6; 7; 8; 0; 0;
  1; 3; 4; 5; 6; 7; 8; 0;
  2; 3; 4; 5; 6; 7; 8; 0;
  1; 2; 3; 4; 5; 6; 7; 8].

(** bitset_util.c:307-564 vecDecodeTable_uint16 *)
Definition vecDecodeTable_uint16 : list Z :=
 [0; 0; 0; 0; 0; 0; 0; 0;
  1; 0; 0; 0; 0; 0; 0; 0;
  2; 0; 0; 0; 0; 0; 0; 0;
  1; 2; 0; 0; 0; 0; 0; 0;
  3; 0; 0; 0; 0; 0; 0; 0;
  1; 3; 0; 0; 0; 0; 0; 0;
  2; 3; 0; 0; 0; 0; 0; 0;
  1; 2; 3; 0; 0; 0; 0; 0;
  4; 0; 0; 0; 0; 0; 0; 0;
  1; 4; 0; 0; 0; 0; 0; 0;
  2; 4; 0; 0; 0; 0; 0; 0;
  1; 2; 4; 0; 0; 0; 0; 0;
  3; 4; 0; 0; 0; 0; 0; 0;
  1; 3; 4; 0; 0; 0; 0; 0;
  2; 3; 4; 0; 0; 0; 0; 0;
  1; 2; 3; 4; 0; 0; 0; 0;
  5; 0; 0; 0; 0; 0; 0; 0;
  1; 5; 0; 0; 0; 0; 0; 0;
  2; 5; 0; 0; 0; 0; 0; 0;
  1; 2; 5; 0; 0; 0; 0; 0;
  3; 5; 0; 0; 0; 0; 0; 0;
  1; 3; 5; 0; 0; 0; 0; 0;
  2; 3; 5; 0; 0; 0; 0; 0;
  1; 2; 3; 5; 0; 0; 0; 0;
  4; 5; 0; 0; 0; 0; 0; 0;
  1; 4; 5; 0; 0; 0; 0; 0;
  2; 4; 5; 0; 0; 0; 0; 0;
  1; 2; 4; 5; 0; 0; 0; 0;
  3; 4; 5; 0; 0; 0; 0; 0;
  1; 3; 4; 5; 0; 0; 0; 0;
  2; 3; 4; 5; 0; 0; 0; 0;
  1; 2; 3; 4; 5; 0; 0; 0;
  6; 0; 0; 0; 0; 0; 0; 0;
  1; 6; 0; 0; 0; 0; 0; 0;
  2; 6; 0; 0; 0; 0; 0; 0;
  1; 2; 6; 0; 0; 0; 0; 0;
  3; 6; 0; 0; 0; 0; 0; 0;
  1; 3; 6; 0; 0; 0; 0; 0;
  2; 3; 6; 0; 0; 0; 0; 0;
  1; 2; 3; 6; 0; 0; 0; 0;
  4; 6; 0; 0; 0; 0; 0; 0;
  1; 4; 6; 0; 0; 0; 0; 0;
  2; 4; 6; 0; 0; 0; 0; 0;
  1; 2; 4; 6; 0; 0; 0; 0;
  3; 4; 6; 0; 0; 0; 0; 0;
  1; 3; 4; 6; 0; 0; 0; 0;
  2; 3; 4; 6; 0; 0; 0; 0;
  1; 2; 3; 4; 6; 0; 0; 0;
  5; 6; 0; 0; 0; 0; 0; 0;
  1; 5; 6; 0; 0; 0; 0; 0;
  2; 5; 6; 0; 0; 0; 0; 0;
  1; 2; 5; 6; 0; 0; 0; 0;
  3; 5; 6; 0; 0; 0; 0; 0;
  1; 3; 5; 6; 0; 0; 0; 0;
  2; 3; 5; 6; 0; 0; 0; 0;
  1; 2; 3; 5; 6; 0; 0; 0;
  4; 5; 6; 0; 0; 0; 0; 0;
  1; 4; 5; 6; 0; 0; 0; 0;
  2; 4; 5; 6; 0; 0; 0; 0;
  1; 2; 4; 5; 6; 0; 0; 0;
  3; 4; 5; 6; 0; 0; 0; 0;
  1; 3; 4; 5; 6; 0; 0; 0;
  2; 3; 4; 5; 6; 0; 0; 0;
  1; 2; 3; 4; 5; 6; 0; 0;
  7; 0; 0; 0; 0; 0; 0; 0;
  1; 7; 0; 0; 0; 0; 0; 0;
  2; 7; 0; 0; 0; 0; 0; 0;
  1; 2; 7; 0; 0; 0; 0; 0;
  3; 7; 0; 0; 0; 0; 0; 0;
  1; 3; 7; 0; 0; 0; 0; 0;
  2; 3; 7; 0; 0; 0; 0; 0;
  1; 2; 3; 7; 0; 0; 0; 0;
  4; 7; 0; 0; 0; 0; 0; 0;
  1; 4; 7; 0; 0; 0; 0; 0;
  2; 4; 7; 0; 0; 0; 0; 0;
  1; 2; 4; 7; 0; 0; 0; 0;
  3; 4; 7; 0; 0; 0; 0; 0;
  1; 3; 4; 7; 0; 0; 0; 0;
  2; 3; 4; 7; 0; 0; 0; 0;
  1; 2; 3; 4; 7; 0; 0; 0;
  5; 7; 0; 0; 0; 0; 0; 0;
  1; 5; 7; 0; 0; 0; 0; 0;
  2; 5; 7; 0; 0; 0; 0; 0;
  1; 2; 5; 7; 0; 0; 0; 0;
  3; 5; 7; 0; 0; 0; 0; 0;
  1; 3; 5; 7; 0; 0; 0; 0;
  2; 3; 5; 7; 0; 0; 0; 0;
  1; 2; 3; 5; 7; 0; 0; 0;
  4; 5; 7; 0; 0; 0; 0; 0;
  1; 4; 5; 7; 0; 0; 0; 0;
  2; 4; 5; 7; 0; 0; 0; 0;
  1; 2; 4; 5; 7; 0; 0; 0;
  3; 4; 5; 7; 0; 0; 0; 0;
  1; 3; 4; 5; 7; 0; 0; 0;
  2; 3; 4; 5; 7; 0; 0; 0;
  1; 2; 3; 4; 5; 7; 0; 0;
  6; 7; 0; 0; 0; 0; 0; 0;
  1; 6; 7; 0; 0; 0; 0; 0;
  2; 6; 7; 0; 0; 0; 0; 0;
  1; 2; 6; 7; 0; 0; 0; 0;
  3; 6; 7; 0; 0; 0; 0; 0;
  1; 3; 6; 7; 0; 0; 0; 0;
  2; 3; 6; 7; 0; 0; 0; 0;
  1; 2; 3; 6; 7; 0; 0; 0;
  4; 6; 7; 0; 0; 0; 0; 0;
  1; 4; 6; 7; 0; 0; 0; 0;
  2; 4; 6; 7; 0; 0; 0; 0;
  1; 2; 4; 6; 7; 0; 0; 0;
  3; 4; 6; 7; 0; 0; 0; 0;
  1; 3; 4; 6; 7; 0; 0; 0;
  2; 3; 4; 6; 7; 0; 0; 0;
  1; 2; 3; 4; 6; 7; 0; 0;
  5; 6; 7; 0; 0; 0; 0; 0;
  1; 5; 6; 7; 0; 0; 0; 0;
  2; 5; 6; 7; 0; 0; 0; 0;
  1; 2; 5; 6; 7; 0; 0; 0;
  3; 5; 6; 7; 0; 0; 0; 0;
  1; 3; 5; 6; 7; 0; 0; 0;
  2; 3; 5; 6; 7; 0; 0; 0;
  1; 2; 3; 5; 6; 7; 0; 0;
  4; 5; 6; 7; 0; 0; 0; 0;
  1; 4; 5; 6; 7; 0; 0; 0;
  2; 4; 5; 6; 7; 0; 0; 0;
  1; 2; 4; 5; 6; 7; 0; 0;
  3; 4; 5; 6; 7; 0; 0; 0;
  1; 3; 4; 5; 6; 7; 0; 0;
  2; 3; 4; 5; 6; 7; 0; 0;
  1; 2; 3; 4; 5; 6; 7; 0;
  8; 0; 0; 0; 0; 0; 0; 0;
  1; 8; 0; 0; 0; 0; 0; 0;
  2; 8; 0; 0; 0; 0; 0; 0;
  1; 2; 8; 0; 0; 0; 0; 0;
  3; 8; 0; 0; 0; 0; 0; 0;
  1; 3; 8; 0; 0; 0; 0; 0;
  2; 3; 8; 0; 0; 0; 0; 0;
  1; 2; 3; 8; 0; 0; 0; 0;
  4; 8; 0; 0; 0; 0; 0; 0;
  1; 4; 8; 0; 0; 0; 0; 0;
  2; 4; 8; 0; 0; 0; 0; 0;
  1; 2; 4; 8; 0; 0; 0; 0;
  3; 4; 8; 0; 0; 0; 0; 0;
  1; 3; 4; 8; 0; 0; 0; 0;
  2; 3; 4; 8; 0; 0; 0; 0;
  1; 2; 3; 4; 8; 0; 0; 0;
  5; 8; 0; 0; 0; 0; 0; 0;
  1; 5; 8; 0; 0; 0; 0; 0;
  2; 5; 8; 0; 0; 0; 0; 0;
  1; 2; 5; 8; 0; 0; 0; 0;
  3; 5; 8; 0; 0; 0; 0; 0;
  1; 3; 5; 8; 0; 0; 0; 0;
  2; 3; 5; 8; 0; 0; 0; 0;
  1; 2; 3; 5; 8; 0; 0; 0;
  4; 5; 8; 0; 0; 0; 0; 0;
  1; 4; 5; 8; 0; 0; 0; 0;
  2; 4; 5; 8; 0; 0; 0; 0;
  1; 2; 4; 5; 8; 0; 0; 0;
  3; 4; 5; 8; 0; 0; 0; 0;
  1; 3; 4; 5; 8; 0; 0; 0;
  2; 3; 4; 5; 8; 0; 0; 0;
  1; 2; 3; 4; 5; 8; 0; 0;
  6; 8; 0; 0; 0; 0; 0; 0;
  1; 6; 8; 0; 0; 0; 0; 0;
  2; 6; 8; 0; 0; 0; 0; 0;
  1; 2; 6; 8; 0; 0; 0; 0;
  3; 6; 8; 0; 0; 0; 0; 0;
  1; 3; 6; 8; 0; 0; 0; 0;
  2; 3; 6; 8; 0; 0; 0; 0;
  1; 2; 3; 6; 8; 0; 0; 0;
  4; 6; 8; 0; 0; 0; 0; 0;
  1; 4; 6; 8; 0; 0; 0; 0;
  2; 4; 6; 8; 0; 0; 0; 0;
  1; 2; 4; 6; 8; 0; 0; 0;
  3; 4; 6; 8; 0; 0; 0; 0;
  1; 3; 4; 6; 8; 0; 0; 0;
  2; 3; 4; 6; 8; 0; 0; 0;
  1; 2; 3; 4; 6; 8; 0; 0;
  5; 6; 8; 0; 0; 0; 0; 0;
  1; 5; 6; 8; 0; 0; 0; 0;
  2; 5; 6; 8; 0; 0; 0; 0;
  1; 2; 5; 6; 8; 0; 0; 0;
  3; 5; 6; 8; 0; 0; 0; 0;
  1; 3; 5; 6; 8; 0; 0; 0;
  2; 3; 5; 6; 8; 0; 0; 0;
  1; 2; 3; 5; 6; 8; 0; 0;
  4; 5; 6; 8; 0; 0; 0; 0;
  1; 4; 5; 6; 8; 0; 0; 0;
  2; 4; 5; 6; 8; 0; 0; 0;
  1; 2; 4; 5; 6; 8; 0; 0;
  3; 4; 5; 6; 8; 0; 0; 0;
  1; 3; 4; 5; 6; 8; 0; 0;
  2; 3; 4; 5; 6; 8; 0; 0;
  1; 2; 3; 4; 5; 6; 8; 0;
  7; 8; 0; 0; 0; 0; 0; 0;
  1; 7; 8; 0; 0; 0; 0; 0;
  2; 7; 8; 0; 0; 0; 0; 0;
  1; 2; 7; 8; 0; 0; 0; 0;
  3; 7; 8; 0; 0; 0; 0; 0;
  1; 3; 7; 8; 0; 0; 0; 0;
  2; 3; 7; 8; 0; 0; 0; 0;
  1; 2; 3; 7; 8; 0; 0; 0;
  4; 7; 8; 0; 0; 0; 0; 0;
  1; 4; 7; 8; 0; 0; 0; 0;
  2; 4; 7; 8; 0; 0; 0; 0;
  1; 2; 4; 7; 8; 0; 0; 0;
  3; 4; 7; 8; 0; 0; 0; 0;
  1; 3; 4; 7; 8; 0; 0; 0;
  2; 3; 4; 7; 8; 0; 0; 0;
  1; 2; 3; 4; 7; 8; 0; 0;
  5; 7; 8; 0; 0; 0; 0; 0;
  1; 5; 7; 8; 0; 0; 0; 0;
  2; 5; 7; 8; 0; 0; 0; 0;
  1; 2; 5; 7; 8; 0; 0; 0;
  3; 5; 7; 8; 0; 0; 0; 0;
  1; 3; 5; 7; 8; 0; 0; 0;
  2; 3; 5; 7; 8; 0; 0; 0;
  1; 2; 3; 5; 7; 8; 0; 0;
  4; 5; 7; 8; 0; 0; 0; 0;
  1; 4; 5; 7; 8; 0; 0; 0;
  2; 4; 5; 7; 8; 0; 0; 0;
  1; 2; 4; 5; 7; 8; 0; 0;
  3; 4; 5; 7; 8; 0; 0; 0;
  1; 3; 4; 5; 7; 8; 0; 0;
  2; 3; 4; 5; 7; 8; 0; 0;
  1; 2; 3; 4; 5; 7; 8; 0;
  6; 7; 8; 0; 0; 0; 0; 0;
  1; 6; 7; 8; 0; 0; 0; 0;
  2; 6; 7; 8; 0; 0; 0; 0;
  1; 2; 6; 7; 8; 0; 0; 0;
  3; 6; 7; 8; 0; 0; 0; 0;
  1; 3; 6; 7; 8; 0; 0; 0;
  2; 3; 6; 7; 8; 0; 0; 0;
  1; 2; 3; 6; 7; 8; 0; 0;
  4; 6; 7; 8; 0; 0; 0; 0;
  1; 4; 6; 7; 8; 0; 0; 0;
  2; 4; 6; 7; 8; 0; 0; 0;
  1; 2; 4; 6; 7; 8; 0; 0;
  3; 4; 6; 7; 8; 0; 0; 0;
  1; 3; 4; 6; 7; 8; 0; 0;
  2; 3; 4; 6; 7; 8; 0; 0;
  1; 2; 3; 4; 6; 7; 8; 0;
  5; 6; 7; 8; 0; 0; 0; 0;
  1; 5; 6; 7; 8; 0; 0; 0;
  2; 5; 6; 7; 8; 0; 0; 0;
  1; 2; 5; 6; 7; 8; 0; 0;
  3; 5; 6; 7; 8; 0; 0; 0;
  1; 3; 5; 6; 7; 8; 0; 0;
  2; 3; 5; 6; 7; 8; 0; 0;
  1; 2; 3; 5; 6; 7; 8; 0;
  4; 5; 6; 7; 8; 0; 0; 0;
  1; 4; 5; 6; 7; 8; 0; 0;
  2; 4; 5; 6; 7; 8; 0; 0;
  1; 2; 4; 5; 6; 7; 8; 0;
  3; 4; 5; 6; 7; 8; 0; 0;
  1; 3; 4; 5; 6; 7; 8; 0;
  2; 3; 4; 5; 6; 7; 8; 0;
  1; 2; 3; 4; 5; 6; 7; 8].

(** bitset_util.c:571-575 vbmi2_table *)
Definition vbmi2_table : list Z :=
 [0; 1; 2; 3; 4; 5; 6; 7; 8; 9; 10; 11; 12; 13; 14; 15;
  16; 17; 18; 19; 20; 21; 22; 23; 24; 25; 26; 27; 28; 29; 30; 31;
  32; 33; 34; 35; 36; 37; 38; 39; 40; 41; 42; 43; 44; 45; 46; 47;
  48; 49; 50; 51; 52; 53; 54; 55; 56; 57; 58; 59; 60; 61; 62; 63].
