(** For d = 2, 3, ..., 607: a proper factor of 2^d - 1, or 1 if 2^d - 1 is
    prime (Lucas-Lehmer test), or 0 if it is composite by Fermat's test.  Found
    by a script, checked in MersenneProofs. *)
From Coq Require Import NArith List.
Import ListNotations.
Local Open Scope N_scope.
Definition witnesses : list N := [
  1; 1; 3; 1; 3; 1; 3; 7; 3; 23; 3; 1; 3; 7; 3; 1; 3; 1; 3; 7; 3; 47; 3; 31; 3; 7; 3; 233; 3; 1; 3;
  7; 3; 31; 3; 223; 3; 7; 3; 13367; 3; 431; 3; 7; 3; 2351; 3; 127; 3; 7; 3; 6361; 3; 31; 3; 7; 3;
  179951; 3; 1; 3; 7; 3; 31; 3; 193707721; 3; 7; 3; 228479; 3; 439; 3; 7; 3; 127; 3; 2687; 3; 7; 3;
  167; 3; 31; 3; 7; 3; 1; 3; 127; 3; 7; 3; 31; 3; 11447; 3; 7; 3; 7432339208719; 3; 2550183799; 3;
  7; 3; 1; 3; 745988807; 3; 7; 3; 3391; 3; 31; 3; 7; 3; 127; 3; 2047; 3; 7; 3; 31; 3; 1; 3; 7; 3;
  263; 3; 127; 3; 7; 3; 32032215596496435569; 3; 5625767248687; 3; 7; 3; 2047; 3; 31; 3; 7; 3;
  86656268566282183151; 3; 18121; 3; 7; 3; 31; 3; 852133201; 3; 7; 3; 127; 3; 150287; 3; 7; 3;
  2349023; 3; 8191; 3; 7; 3; 730753; 3; 31; 3; 7; 3; 359; 3; 43441; 3; 7; 3; 31; 3; 2047; 3; 7; 3;
  383; 3; 13821503; 3; 7; 3; 7487; 3; 164504919713; 3; 7; 3; 127; 3; 31; 3; 7; 3; 2047; 3; 15193;
  3; 7; 3; 31; 3; 127; 3; 7; 3; 8191; 3; 18287; 3; 7; 3; 26986333437777017; 3; 1504073; 3; 7; 3;
  1399; 3; 31; 3; 7; 3; 479; 3; 22000409; 3; 7; 3; 31; 3; 8191; 3; 7; 3; 503; 3; 2047; 3; 7; 3;
  535006138814359; 3; 127; 3; 7; 3; 23671; 3; 31; 3; 7; 3; 13822297; 3; 15242475217; 3; 7; 3; 31;
  3; 1121297; 3; 7; 3; 80929; 3; 9623; 3; 7; 3; 127; 3; 131071; 3; 7; 3; 0; 3; 31; 3; 7; 3; 8191;
  3; 127; 3; 7; 3; 31; 3; 14608903; 3; 7; 3; 5344847; 3; 10960009; 3; 7; 3; 9511; 3; 2047; 3; 7; 3;
  131071; 3; 31; 3; 7; 3; 127; 3; 16937389168607; 3; 7; 3; 31; 3; 18199; 3; 7; 3; 2047; 3; 127; 3;
  7; 3; 0; 3; 1779973928671; 3; 7; 3; 931921; 3; 31; 3; 7; 3; 719; 3; 524287; 3; 7; 3; 31; 3;
  12479; 3; 7; 3; 127; 3; 25569151; 3; 7; 3; 8191; 3; 180818808679; 3; 7; 3; 1440847; 3; 31; 3; 7;
  3; 56478911; 3; 131071; 3; 7; 3; 31; 3; 2383; 3; 7; 3; 856971565399; 3; 8191; 3; 7; 3; 2047; 3;
  76025626689833; 3; 7; 3; 127; 3; 31; 3; 7; 3; 839; 3; 614002928307599; 3; 7; 3; 31; 3; 127; 3; 7;
  3; 863; 3; 22086765417396827057; 3; 7; 3; 524287; 3; 104110607; 3; 7; 3; 887; 3; 31; 3; 7; 3;
  1256303; 3; 2047; 3; 7; 3; 31; 3; 150327409; 3; 7; 3; 2767; 3; 11113; 3; 7; 3; 121606801; 3; 127;
  3; 7; 3; 2047; 3; 31; 3; 7; 3; 33385343; 3; 8191; 3; 7; 3; 31; 3; 4871; 3; 7; 3; 983; 3; 131071;
  3; 7; 3; 127; 3; 20959; 3; 7; 3; 3213684984979279; 3; 31; 3; 7; 3; 12619129; 3; 127; 3; 7; 3; 31;
  3; 2047; 3; 7; 3; 1; 3; 0; 3; 7; 3; 131071; 3; 8388607; 3; 7; 3; 8191; 3; 31; 3; 7; 3; 127; 3;
  4312790327; 3; 7; 3; 31; 3; 5471; 3; 7; 3; 524287; 3; 127; 3; 7; 3; 3343; 3; 8191; 3; 7; 3; 0; 3;
  31; 3; 7; 3; 15854617; 3; 5711; 3; 7; 3; 31; 3; 3463; 3; 7; 3; 127; 3; 2047; 3; 7; 3; 554129; 3;
  524287; 3; 7; 3; 104369; 3; 31; 3; 7; 3; 0; 3; 3607; 3; 7; 3; 31; 3; 1].
