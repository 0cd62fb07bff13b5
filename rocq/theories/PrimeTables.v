(** The prime factor tables of lib/AlgorithmPrimitivity.cpp:53-170, copied
    literally (generated from the source text); the closing NULL is the end of
    the list. *)
From Coq Require Import NArith List String Ascii.
Import ListNotations.
Local Open Scope string_scope.

(** A C string as the list of its characters. *)
Fixpoint chars (s : string) : list N :=
  match s with EmptyString => [] | String c r => N_of_ascii c :: chars r end.

(** lines 53-55 *)
Definition prime_factors2_128_1 : list string := [
  "3"; "5"; "17"; "257"; "641"; "65537"; "274177"; "6700417"; "67280421310721"].

(** lines 57-59 *)
Definition prime_factors2_160_1 : list string := [
  "3"; "5"; "11"; "17"; "31"; "41"; "257"; "61681"; "65537"; "414721"; "4278255361";
  "44479210368001"].

(** lines 61-63 *)
Definition prime_factors2_192_1 : list string := [
  "3"; "5"; "7"; "13"; "17"; "97"; "193"; "241"; "257"; "641"; "673"; "65537"; "6700417";
  "22253377"; "18446744069414584321"].

(** lines 65-68 *)
Definition prime_factors2_224_1 : list string := [
  "3"; "5"; "17"; "29"; "43"; "113"; "127"; "257"; "449"; "2689"; "5153"; "65537"; "15790321";
  "183076097"; "54410972897"; "358429848460993"].

(** lines 70-73 *)
Definition prime_factors2_256_1 : list string := [
  "3"; "5"; "17"; "257"; "641"; "65537"; "274177"; "6700417"; "67280421310721";
  "59649589127497217"; "5704689200685129054721"].

(** lines 75-79 *)
Definition prime_factors2_288_1 : list string := [
  "3"; "5"; "7"; "13"; "17"; "19"; "37"; "73"; "97"; "109"; "193"; "241"; "257"; "433"; "577";
  "673"; "1153"; "6337"; "38737"; "65537"; "22253377"; "38941695937"; "278452876033"; "487824887233"].

(** lines 81-85 *)
Definition prime_factors2_320_1 : list string := [
  "3"; "5"; "11"; "17"; "31"; "41"; "257"; "641"; "61681"; "65537"; "414721"; "3602561"; "6700417";
  "4278255361"; "44479210368001"; "94455684953484563055991838558081"].

(** lines 87-91 *)
Definition prime_factors2_352_1 : list string := [
  "3"; "5"; "17"; "23"; "89"; "257"; "353"; "397"; "683"; "2113"; "65537"; "229153"; "5304641";
  "119782433"; "2931542417"; "43872038849"; "275509565477848842604777623828011666349761"].

(** lines 93-98 *)
Definition prime_factors2_384_1 : list string := [
  "3"; "5"; "7"; "13"; "17"; "97"; "193"; "241"; "257"; "641"; "673"; "769"; "65537"; "274177";
  "6700417"; "22253377"; "67280421310721"; "18446744069414584321";
  "442499826945303593556473164314770689"].

(** lines 100-105 *)
Definition prime_factors2_416_1 : list string := [
  "3"; "5"; "17"; "53"; "157"; "257"; "1613"; "2731"; "8191"; "65537"; "858001"; "928513";
  "308761441"; "18558466369"; "23877647873"; "21316654212673"; "715668470267111297";
  "78919881726271091143763623681"].

(** lines 107-112 *)
Definition prime_factors2_448_1 : list string := [
  "3"; "5"; "17"; "29"; "43"; "113"; "127"; "257"; "449"; "641"; "2689"; "5153"; "65537";
  "6700417"; "15790321"; "183076097"; "54410972897"; "358429848460993"; "167773885276849215533569";
  "37414057161322375957408148834323969"].

(** lines 114-120 *)
Definition prime_factors2_480_1 : list string := [
  "3"; "5"; "7"; "11"; "13"; "17"; "31"; "41"; "61"; "97"; "151"; "193"; "241"; "257"; "331";
  "673"; "1321"; "23041"; "61681"; "65537"; "414721"; "22253377"; "394783681"; "4278255361";
  "4562284561"; "46908728641"; "44479210368001"; "14768784307009061644318236958041601"].

(** lines 122-128 *)
Definition prime_factors2_512_1 : list string := [
  "3"; "5"; "17"; "257"; "641"; "65537"; "274177"; "6700417"; "67280421310721"; "1238926361552897";
  "59649589127497217"; "5704689200685129054721";
  "93461639715357977769163558199606896584051237541638188580280321"].

(** lines 130-137 *)
Definition prime_factors2_544_1 : list string := [
  "3"; "5"; "17"; "137"; "257"; "953"; "5441"; "26317"; "43691"; "65537"; "131071"; "354689";
  "383521"; "2368179743873"; "2879347902817"; "373200722470799764577";
  "335631827046798245410603730138717057"; "63406006407727721042109834220642811713"].

(** lines 139-146 *)
Definition prime_factors2_640_1 : list string := [
  "3"; "5"; "11"; "17"; "31"; "41"; "257"; "641"; "61681"; "65537"; "274177"; "286721"; "414721";
  "3602561"; "6700417"; "446960641"; "4278255361"; "96645260801"; "44479210368001";
  "67280421310721"; "3442404051886487041"; "94455684953484563055991838558081";
  "2715862005931406599419575483412481"].

(** lines 148-157 *)
Definition prime_factors2_800_1 : list string := [
  "3"; "5"; "11"; "17"; "31"; "41"; "101"; "251"; "257"; "401"; "601"; "1601"; "1801"; "4051";
  "8101"; "25601"; "61681"; "65537"; "268501"; "340801"; "414721"; "2787601"; "82471201";
  "3173389601"; "4278255361"; "44479210368001"; "3399426377632056001"; "4850484222084371979240001";
  "432363203127002885506543172618401"; "129541188208935646963818844716591986208974410651257601"].

(** lines 159-170 *)
Definition prime_factors2_960_1 : list string := [
  "3"; "5"; "7"; "11"; "13"; "17"; "31"; "41"; "61"; "97"; "151"; "193"; "241"; "257"; "331";
  "641"; "673"; "1321"; "23041"; "26881"; "61681"; "65537"; "414721"; "3602561"; "4855681";
  "6700417"; "22253377"; "394783681"; "610548481"; "4278255361"; "4562284561"; "46908728641";
  "137603804161"; "44479210368001"; "18446744069414584321"; "94455684953484563055991838558081";
  "14768784307009061644318236958041601"; "10559241583796365631935764162530238561452234881"].

(** All of them with their exponents. *)
Definition shipped_tables : list (nat * list string) := [
  (N.to_nat 128, prime_factors2_128_1);
  (N.to_nat 160, prime_factors2_160_1);
  (N.to_nat 192, prime_factors2_192_1);
  (N.to_nat 224, prime_factors2_224_1);
  (N.to_nat 256, prime_factors2_256_1);
  (N.to_nat 288, prime_factors2_288_1);
  (N.to_nat 320, prime_factors2_320_1);
  (N.to_nat 352, prime_factors2_352_1);
  (N.to_nat 384, prime_factors2_384_1);
  (N.to_nat 416, prime_factors2_416_1);
  (N.to_nat 448, prime_factors2_448_1);
  (N.to_nat 480, prime_factors2_480_1);
  (N.to_nat 512, prime_factors2_512_1);
  (N.to_nat 544, prime_factors2_544_1);
  (N.to_nat 640, prime_factors2_640_1);
  (N.to_nat 800, prime_factors2_800_1);
  (N.to_nat 960, prime_factors2_960_1)].
