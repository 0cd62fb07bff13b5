(** Primality certificates for the members of the tables (found by a script
    outside Coq, checked here). *)
From Coq Require Import NArith List.
From Verif Require Import PrimeCert.
Import ListNotations.
Local Open Scope N_scope.
Definition certs : list cert := [
  (3, [(2, 1%nat, 2)]);
  (5, [(2, 2%nat, 2)]);
  (7, [(2, 1%nat, 3)]);
  (11, [(5, 1%nat, 2)]);
  (13, [(2, 2%nat, 2)]);
  (17, [(2, 4%nat, 3)]);
  (19, [(3, 2%nat, 2)]);
  (23, [(11, 1%nat, 2)]);
  (29, [(7, 1%nat, 2)]);
  (31, [(5, 1%nat, 2)]);
  (37, [(3, 2%nat, 2)]);
  (41, [(2, 3%nat, 3)]);
  (43, [(7, 1%nat, 2)]);
  (53, [(13, 1%nat, 2)]);
  (61, [(2, 2%nat, 2); (3, 1%nat, 2)]);
  (73, [(2, 3%nat, 5)]);
  (89, [(11, 1%nat, 2)]);
  (97, [(2, 5%nat, 5)]);
  (101, [(5, 2%nat, 2)]);
  (109, [(3, 3%nat, 3)]);
  (113, [(2, 4%nat, 3)]);
  (127, [(3, 2%nat, 3); (2, 1%nat, 3)]);
  (137, [(17, 1%nat, 2)]);
  (151, [(5, 2%nat, 3)]);
  (157, [(13, 1%nat, 2)]);
  (193, [(2, 6%nat, 5)]);
  (241, [(2, 4%nat, 7)]);
  (251, [(5, 3%nat, 3)]);
  (257, [(2, 8%nat, 3)]);
  (331, [(11, 1%nat, 3); (2, 1%nat, 2)]);
  (353, [(2, 5%nat, 3)]);
  (397, [(3, 2%nat, 3); (2, 2%nat, 2)]);
  (401, [(5, 2%nat, 2)]);
  (433, [(3, 3%nat, 3)]);
  (449, [(2, 6%nat, 3)]);
  (577, [(2, 6%nat, 5)]);
  (601, [(5, 2%nat, 2)]);
  (641, [(2, 7%nat, 3)]);
  (673, [(2, 5%nat, 5)]);
  (683, [(31, 1%nat, 3)]);
  (769, [(2, 8%nat, 7)]);
  (953, [(2, 3%nat, 3); (7, 1%nat, 3)]);
  (1153, [(2, 7%nat, 5)]);
  (1321, [(2, 3%nat, 7); (5, 1%nat, 2)]);
  (1601, [(2, 6%nat, 3)]);
  (1613, [(13, 1%nat, 2); (2, 2%nat, 2)]);
  (1801, [(3, 2%nat, 3); (2, 3%nat, 11)]);
  (2113, [(2, 6%nat, 5)]);
  (2689, [(2, 7%nat, 13)]);
  (2731, [(13, 1%nat, 2); (7, 1%nat, 3)]);
  (4051, [(3, 4%nat, 3)]);
  (5153, [(2, 5%nat, 3); (7, 1%nat, 2)]);
  (5441, [(2, 6%nat, 3); (5, 1%nat, 3)]);
  (6337, [(2, 6%nat, 5); (3, 2%nat, 2)]);
  (8101, [(3, 4%nat, 3); (2, 2%nat, 2)]);
  (8191, [(13, 1%nat, 2); (3, 2%nat, 7)]);
  (23041, [(2, 9%nat, 11)]);
  (25601, [(2, 10%nat, 3)]);
  (26317, [(43, 1%nat, 3); (2, 2%nat, 2)]);
  (26881, [(2, 8%nat, 11)]);
  (67, [(11, 1%nat, 2)]);
  (269, [(67, 1%nat, 2)]);
  (38737, [(269, 1%nat, 3)]);
  (43691, [(257, 1%nat, 3)]);
  (61681, [(257, 1%nat, 3)]);
  (65537, [(2, 16%nat, 3)]);
  (131071, [(257, 1%nat, 3); (2, 1%nat, 3)]);
  (229153, [(2, 5%nat, 5); (31, 1%nat, 3)]);
  (179, [(89, 1%nat, 2)]);
  (268501, [(179, 1%nat, 3); (2, 2%nat, 2)]);
  (274177, [(2, 8%nat, 5); (3, 2%nat, 3)]);
  (286721, [(2, 13%nat, 3)]);
  (340801, [(2, 6%nat, 7); (5, 2%nat, 2)]);
  (354689, [(2, 7%nat, 3); (17, 1%nat, 2)]);
  (47, [(23, 1%nat, 2)]);
  (383521, [(47, 1%nat, 3); (2, 5%nat, 7)]);
  (414721, [(2, 10%nat, 7)]);
  (858001, [(5, 3%nat, 3); (2, 4%nat, 17)]);
  (928513, [(2, 8%nat, 5); (3, 2%nat, 5)]);
  (2787601, [(101, 1%nat, 3); (5, 2%nat, 2)]);
  (3602561, [(433, 1%nat, 3); (2, 7%nat, 3)]);
  (4855681, [(2, 7%nat, 7); (3, 3%nat, 5)]);
  (5304641, [(11, 2%nat, 3); (2, 6%nat, 3)]);
  (727, [(11, 2%nat, 2)]);
  (17449, [(727, 1%nat, 2)]);
  (6700417, [(17449, 1%nat, 3)]);
  (15790321, [(241, 1%nat, 3); (2, 4%nat, 11); (3, 2%nat, 3)]);
  (115903, [(47, 1%nat, 2); (3, 2%nat, 3)]);
  (22253377, [(115903, 1%nat, 3)]);
  (409, [(2, 3%nat, 7); (3, 1%nat, 2)]);
  (4909, [(409, 1%nat, 2)]);
  (82471201, [(4909, 1%nat, 3); (2, 5%nat, 11)]);
  (281, [(2, 3%nat, 3); (7, 1%nat, 2)]);
  (173, [(43, 1%nat, 2)]);
  (119782433, [(281, 1%nat, 3); (173, 1%nat, 3)]);
  (183076097, [(19, 2%nat, 3); (2, 8%nat, 3)]);
  (103, [(17, 1%nat, 2)]);
  (1237, [(103, 1%nat, 2)]);
  (49481, [(1237, 1%nat, 2)]);
  (308761441, [(49481, 1%nat, 3)]);
  (71, [(7, 1%nat, 2); (2, 1%nat, 7)]);
  (411233, [(71, 1%nat, 2); (2, 5%nat, 3)]);
  (394783681, [(411233, 1%nat, 3)]);
  (1039, [(173, 1%nat, 2)]);
  (4157, [(1039, 1%nat, 2)]);
  (446960641, [(4157, 1%nat, 3); (2, 10%nat, 11)]);
  (52999, [(11, 2%nat, 2); (2, 1%nat, 3)]);
  (610548481, [(52999, 1%nat, 3)]);
  (1451, [(5, 2%nat, 2); (2, 1%nat, 2)]);
  (8707, [(1451, 1%nat, 2)]);
  (2931542417, [(8707, 1%nat, 3); (2, 4%nat, 3)]);
  (6947, [(151, 1%nat, 2)]);
  (3173389601, [(6947, 1%nat, 3); (2, 5%nat, 3)]);
  (4278255361, [(65537, 1%nat, 3)]);
  (229, [(19, 1%nat, 2)]);
  (4562284561, [(229, 1%nat, 3); (19, 1%nat, 3); (2, 4%nat, 11)]);
  (107, [(53, 1%nat, 2)]);
  (10487, [(107, 1%nat, 2)]);
  (18558466369, [(10487, 1%nat, 3); (2, 6%nat, 17)]);
  (1201, [(2, 4%nat, 11); (3, 1%nat, 2)]);
  (23877647873, [(1201, 1%nat, 3); (2, 9%nat, 3)]);
  (83, [(41, 1%nat, 2)]);
  (167, [(83, 1%nat, 2)]);
  (38941695937, [(167, 1%nat, 3); (2, 6%nat, 5); (19, 1%nat, 3)]);
  (4951, [(5, 2%nat, 2); (3, 2%nat, 2)]);
  (43872038849, [(4951, 1%nat, 3); (2, 6%nat, 3)]);
  (5429251, [(5, 3%nat, 2); (19, 1%nat, 2)]);
  (46908728641, [(5429251, 1%nat, 3)]);
  (443, [(13, 1%nat, 2); (2, 1%nat, 2)]);
  (660071, [(443, 1%nat, 2); (2, 1%nat, 11)]);
  (242906129, [(660071, 1%nat, 2)]);
  (54410972897, [(242906129, 1%nat, 3)]);
  (23669, [(97, 1%nat, 2); (2, 2%nat, 2)]);
  (96645260801, [(23669, 1%nat, 3); (2, 9%nat, 3)]);
  (277, [(23, 1%nat, 2)]);
  (1663, [(277, 1%nat, 2)]);
  (137603804161, [(1663, 1%nat, 3); (2, 10%nat, 7)]);
  (347, [(173, 1%nat, 2)]);
  (278452876033, [(347, 1%nat, 3); (2, 8%nat, 5); (3, 2%nat, 2)]);
  (28751, [(5, 4%nat, 2)]);
  (487824887233, [(28751, 1%nat, 3); (2, 6%nat, 5)]);
  (7321, [(61, 1%nat, 2); (2, 3%nat, 7)]);
  (2437, [(29, 1%nat, 2); (2, 2%nat, 2)]);
  (2368179743873, [(7321, 1%nat, 3); (2437, 1%nat, 3)]);
  (1205951, [(89, 1%nat, 2); (5, 2%nat, 2)]);
  (2879347902817, [(1205951, 1%nat, 3); (2, 5%nat, 5)]);
  (57487, [(67, 1%nat, 2); (13, 1%nat, 2)]);
  (1117, [(3, 2%nat, 2); (2, 2%nat, 2)]);
  (21316654212673, [(57487, 1%nat, 3); (1117, 1%nat, 3)]);
  (17029, [(43, 1%nat, 2); (2, 2%nat, 2)]);
  (6096383, [(17029, 1%nat, 2)]);
  (44479210368001, [(6096383, 1%nat, 3); (2, 10%nat, 7)]);
  (16657, [(347, 1%nat, 2)]);
  (166571, [(16657, 1%nat, 2)]);
  (2998279, [(166571, 1%nat, 2)]);
  (67280421310721, [(2998279, 1%nat, 3); (2, 8%nat, 3)]);
  (283, [(47, 1%nat, 2)]);
  (74713, [(283, 1%nat, 2)]);
  (79, [(13, 1%nat, 2)]);
  (1423, [(79, 1%nat, 2)]);
  (5693, [(1423, 1%nat, 2)]);
  (358429848460993, [(74713, 1%nat, 3); (5693, 1%nat, 3)]);
  (2791, [(31, 1%nat, 2); (2, 1%nat, 3)]);
  (16747, [(2791, 1%nat, 2)]);
  (3853149761, [(16747, 1%nat, 2); (2, 6%nat, 3)]);
  (1238926361552897, [(3853149761, 1%nat, 3)]);
  (823, [(137, 1%nat, 2)]);
  (52673, [(823, 1%nat, 2)]);
  (1896229, [(52673, 1%nat, 2)]);
  (18533742247, [(1896229, 1%nat, 2)]);
  (116503103764643, [(18533742247, 1%nat, 2)]);
  (59649589127497217, [(116503103764643, 1%nat, 3)]);
  (938983, [(347, 1%nat, 2); (3, 1%nat, 3)]);
  (239, [(17, 1%nat, 2)]);
  (430089224920139, [(938983, 1%nat, 2); (239, 1%nat, 2)]);
  (715668470267111297, [(430089224920139, 1%nat, 3)]);
  (238703, [(41, 2%nat, 2)]);
  (7638497, [(238703, 1%nat, 2)]);
  (25367, [(1153, 1%nat, 2)]);
  (3399426377632056001, [(7638497, 1%nat, 3); (25367, 1%nat, 3)]);
  (27539, [(281, 1%nat, 2)]);
  (330469, [(27539, 1%nat, 2)]);
  (5948443, [(330469, 1%nat, 2)]);
  (87323143241, [(5948443, 1%nat, 2)]);
  (3442404051886487041, [(87323143241, 1%nat, 3)]);
  (18446744069414584321, [(2, 32%nat, 7)]);
  (10884469, [(107, 1%nat, 2); (7, 2%nat, 2)]);
  (487, [(3, 5%nat, 2)]);
  (4871, [(487, 1%nat, 2)]);
  (373200722470799764577, [(10884469, 1%nat, 3); (4871, 1%nat, 3)]);
  (1783, [(3, 4%nat, 2)]);
  (6939437, [(1783, 1%nat, 2); (2, 2%nat, 2)]);
  (55515497, [(6939437, 1%nat, 2)]);
  (733803839347, [(55515497, 1%nat, 2)]);
  (5704689200685129054721, [(733803839347, 1%nat, 3)]);
  (1979, [(23, 1%nat, 2); (2, 1%nat, 2)]);
  (47497, [(1979, 1%nat, 2)]);
  (189989, [(47497, 1%nat, 2)]);
  (379979, [(189989, 1%nat, 2)]);
  (97859369123353, [(379979, 1%nat, 2); (67, 1%nat, 2)]);
  (167773885276849215533569, [(97859369123353, 1%nat, 3)]);
  (10926241, [(2, 5%nat, 11); (17, 1%nat, 2); (13, 1%nat, 2)]);
  (53993112525601, [(10926241, 1%nat, 2)]);
  (4850484222084371979240001, [(53993112525601, 1%nat, 3)]);
  (78919881726271091143763623681, [(22253377, 1%nat, 3); (65537, 1%nat, 3); (2, 8%nat, 11)]);
  (1259, [(37, 1%nat, 2)]);
  (78059, [(1259, 1%nat, 2)]);
  (1358382719, [(78059, 1%nat, 2)]);
  (2415507092167373383, [(1358382719, 1%nat, 2); (2, 1%nat, 3)]);
  (94455684953484563055991838558081, [(2415507092167373383, 1%nat, 3)]);
  (5297, [(331, 1%nat, 2)]);
  (2002267, [(5297, 1%nat, 2)]);
  (176127414389, [(2002267, 1%nat, 2)]);
  (3522548287781, [(176127414389, 1%nat, 2)]);
  (304017052525226987, [(3522548287781, 1%nat, 2)]);
  (114918445854535801087, [(304017052525226987, 1%nat, 2)]);
  (97431765622634506378795559, [(114918445854535801087, 1%nat, 2)]);
  (432363203127002885506543172618401, [(97431765622634506378795559, 1%nat, 3)]);
  (30640177, [(269, 1%nat, 2); (113, 1%nat, 2)]);
  (431406275092353611, [(30640177, 1%nat, 2); (41, 1%nat, 2)]);
  (2715862005931406599419575483412481, [(431406275092353611, 1%nat, 3)]);
  (292469, [(17, 2%nat, 3); (2, 2%nat, 2)]);
  (1671755143753, [(292469, 1%nat, 2); (2, 3%nat, 5)]);
  (52913698359930154753, [(1671755143753, 1%nat, 2)]);
  (14768784307009061644318236958041601, [(52913698359930154753, 1%nat, 3)]);
  (1549, [(43, 1%nat, 2)]);
  (6197, [(1549, 1%nat, 2)]);
  (1335912079, [(6197, 1%nat, 2); (19, 1%nat, 3)]);
  (32061889897, [(1335912079, 1%nat, 2)]);
  (25136521679249, [(32061889897, 1%nat, 2)]);
  (1481, [(2, 3%nat, 3); (5, 1%nat, 2)]);
  (2963, [(1481, 1%nat, 2)]);
  (36753053, [(2963, 1%nat, 2); (2, 2%nat, 2)]);
  (37414057161322375957408148834323969, [(25136521679249, 1%nat, 3); (36753053, 1%nat, 3)]);
  (131, [(13, 1%nat, 2)]);
  (34061, [(131, 1%nat, 2); (2, 2%nat, 2)]);
  (572765416193, [(34061, 1%nat, 2); (2, 8%nat, 3)]);
  (37802517468739, [(572765416193, 1%nat, 2)]);
  (367, [(61, 1%nat, 2)]);
  (109367, [(367, 1%nat, 2)]);
  (335631827046798245410603730138717057, [(37802517468739, 1%nat, 3); (109367, 1%nat, 3)]);
  (2843, [(7, 2%nat, 2); (2, 1%nat, 2)]);
  (90977, [(2843, 1%nat, 2)]);
  (749650481, [(90977, 1%nat, 2)]);
  (2953, [(3, 2%nat, 3); (2, 3%nat, 5)]);
  (1252073, [(2953, 1%nat, 2)]);
  (64589225536022735560889, [(749650481, 1%nat, 2); (1252073, 1%nat, 2)]);
  (52379240878942186737271918124381, [(64589225536022735560889, 1%nat, 2)]);
  (442499826945303593556473164314770689, [(52379240878942186737271918124381, 1%nat, 3)]);
  (5105341, [(251, 1%nat, 2); (3, 2%nat, 2)]);
  (139, [(23, 1%nat, 2)]);
  (557, [(139, 1%nat, 2)]);
  (66841, [(557, 1%nat, 2)]);
  (20528439005046674987321, [(5105341, 1%nat, 2); (66841, 1%nat, 2)]);
  (347464358599420020835395247, [(20528439005046674987321, 1%nat, 2)]);
  (63406006407727721042109834220642811713, [(347464358599420020835395247, 1%nat, 3)]);
  (59, [(29, 1%nat, 2)]);
  (4603, [(59, 1%nat, 2); (2, 1%nat, 2)]);
  (1562147729, [(4603, 1%nat, 2); (2, 4%nat, 3)]);
  (2543176502813, [(1562147729, 1%nat, 2)]);
  (661225890731381, [(2543176502813, 1%nat, 2)]);
  (99183883609707151, [(661225890731381, 1%nat, 2)]);
  (6963303732703100243107, [(99183883609707151, 1%nat, 2)]);
  (275509565477848842604777623828011666349761, [(6963303732703100243107, 1%nat, 3)]);
  (173729, [(89, 1%nat, 2); (2, 5%nat, 3)]);
  (3471452879, [(173729, 1%nat, 2)]);
  (978949711879, [(3471452879, 1%nat, 2)]);
  (41666975891823740503, [(978949711879, 1%nat, 2)]);
  (822778102778697642022315581305197, [(41666975891823740503, 1%nat, 2)]);
  (10559241583796365631935764162530238561452234881, [(822778102778697642022315581305197, 1%nat, 3)]);
  (3079, [(3, 4%nat, 2)]);
  (2931209, [(3079, 1%nat, 2)]);
  (5862419, [(2931209, 1%nat, 2)]);
  (1293507577837, [(5862419, 1%nat, 2)]);
  (147459863873419, [(1293507577837, 1%nat, 2)]);
  (509, [(127, 1%nat, 2)]);
  (1019, [(509, 1%nat, 2)]);
  (63179, [(1019, 1%nat, 2)]);
  (16925275027, [(63179, 1%nat, 2); (3, 3%nat, 2)]);
  (130087663857523, [(16925275027, 1%nat, 2)]);
  (129541188208935646963818844716591986208974410651257601, [(147459863873419, 1%nat, 3); (130087663857523, 1%nat, 3)]);
  (10948139, [(29, 2%nat, 2); (23, 1%nat, 2)]);
  (6130957841, [(10948139, 1%nat, 2)]);
  (220714482277, [(6130957841, 1%nat, 2)]);
  (9243081088796207, [(220714482277, 1%nat, 2)]);
  (1699, [(283, 1%nat, 2)]);
  (10608557, [(1699, 1%nat, 2); (2, 2%nat, 2)]);
  (1057372046781162536274034354686893329625329, [(9243081088796207, 1%nat, 2); (10608557, 1%nat, 2)]);
  (93461639715357977769163558199606896584051237541638188580280321, [(1057372046781162536274034354686893329625329, 1%nat, 3)])].
(** Multiplicities of the table entries in 2^n - 1. *)
Definition mults : list (list nat) := [
  [1; 1; 1; 1; 1; 1; 1; 1; 1]%nat;
  [1; 2; 1; 1; 1; 1; 1; 1; 1; 1; 1; 1]%nat;
  [2; 1; 1; 1; 1; 1; 1; 1; 1; 1; 1; 1; 1; 1; 1]%nat;
  [1; 1; 1; 1; 1; 1; 1; 1; 1; 1; 1; 1; 1; 1; 1; 1]%nat;
  [1; 1; 1; 1; 1; 1; 1; 1; 1; 1; 1]%nat;
  [3; 1; 1; 1; 1; 1; 1; 1; 1; 1; 1; 1; 1; 1; 1; 1; 1; 1; 1; 1; 1; 1; 1; 1]%nat;
  [1; 2; 1; 1; 1; 1; 1; 1; 1; 1; 1; 1; 1; 1; 1; 1]%nat;
  [1; 1; 1; 1; 1; 1; 1; 1; 1; 1; 1; 1; 1; 1; 1; 1; 1]%nat;
  [2; 1; 1; 1; 1; 1; 1; 1; 1; 1; 1; 1; 1; 1; 1; 1; 1; 1; 1]%nat;
  [1; 1; 1; 1; 1; 1; 1; 1; 1; 1; 1; 1; 1; 1; 1; 1; 1; 1]%nat;
  [1; 1; 1; 1; 1; 1; 1; 1; 1; 1; 1; 1; 1; 1; 1; 1; 1; 1; 1; 1]%nat;
  [2; 2; 1; 1; 1; 1; 1; 1; 1; 1; 1; 1; 1; 1; 1; 1; 1; 1; 1; 1; 1; 1; 1; 1; 1; 1; 1; 1]%nat;
  [1; 1; 1; 1; 1; 1; 1; 1; 1; 1; 1; 1; 1]%nat;
  [1; 1; 2; 1; 1; 1; 1; 1; 1; 1; 1; 1; 1; 1; 1; 1; 1; 1]%nat;
  [1; 2; 1; 1; 1; 1; 1; 1; 1; 1; 1; 1; 1; 1; 1; 1; 1; 1; 1; 1; 1; 1; 1]%nat;
  [1; 3; 1; 1; 1; 1; 1; 1; 1; 1; 1; 1; 1; 1; 1; 1; 1; 1; 1; 1; 1; 1; 1; 1; 1; 1; 1; 1; 1; 1]%nat;
  [2; 2; 1; 1; 1; 1; 1; 1; 1; 1; 1; 1; 1; 1; 1; 1; 1; 1; 1; 1; 1; 1; 1; 1; 1; 1; 1; 1; 1; 1; 1; 1; 1; 1; 1; 1; 1; 1]%nat].
Definition known_primes : list N := rev (map fst certs) ++ [2].
