(** The coefficients of the approximation of the error function, utilities.py 427-480 and
    483-514.  A number m * 10^e of the source is the pair (m, e). *)
From Coq Require Import Reals List ZArith.
From Verif Require Import Base.
Local Open Scope Z_scope.

(** utilities.py 427-451 *)
Definition a_Q : list (list (Z * Z)) :=
  [[(5, (-1))];
   [(38896664, (-8)); (11103336, (-8))];
   [(33527962, (-8)); (12810593, (-8)); (3661445, (-8))];
   [(30030983, (-8)); (13487919, (-8)); (5013556, (-8)); (1467542, (-8))];
   [(27479399, (-8)); (13748584, (-8)); (5862135, (-8)); (2248433, (-8)); (661449, (-8))];
   [(25503407, (-8)); (13802966, (-8)); (643485, (-7)); (2837111, (-8)); (109824, (-7)); (323426, (-8))];
   [(23911489, (-8)); (13748632, (-8)); (6838034, (-8)); (3292679, (-8)); (1470502, (-8)); (570587, (-8)); (168077, (-8))];
   [(22591697, (-8)); (13634258, (-8)); (7131091, (-8)); (3652669, (-8)); (1786631, (-8)); (801018, (-8)); (311014, (-8)); (91621, (-8))];
   [(21473387, (-8)); (13486132, (-8)); (7348597, (-8)); (3943108, (-8)); (2055793, (-8)); (1011012, (-8)); (453815, (-8)); (176237, (-8)); (51918, (-8))];
   [(20509396, (-8)); (1331934, (-7)); (7511994, (-8)); (4181489, (-8)); (2286797, (-8)); (1200445, (-8)); (591433, (-8)); (265578, (-8)); (103142, (-8)); (30385, (-8))];
   [(196668237, (-9)); (131429201, (-9)); (763533671, (-10)); (437988006, (-10)); (248670891, (-10)); (137105484, (-10)); (721518244, (-11)); (355697135, (-11)); (159742839, (-11)); (620405304, (-12)); (182769115, (-12))];
   [(189218959, (-9)); (129624502, (-9)); (77282477, (-9)); (454686466, (-10)); (26610682, (-9)); (152489276, (-10)); (843419941, (-11)); (44425288, (-10)); (219058207, (-11)); (983829957, (-12)); (382100123, (-12)); (112565366, (-12))];
   [(182569305, (-9)); (127814364, (-9)); (779755534, (-10)); (468871585, (-10)); (281422454, (-10)); (166393673, (-10)); (957165126, (-11)); (530057319, (-11)); (279291283, (-11)); (137728068, (-11)); (618571899, (-12)); (240241728, (-12)); (707743946, (-13))];
   [(176584557, (-9)); (126021005, (-9)); (784824737, (-10)); (481012603, (-10)); (2949619, (-8)); (178997594, (-10)); (106309534, (-10)); (612490957, (-11)); (339347815, (-11)); (178828708, (-11)); (881893551, (-12)); (396083441, (-12)); (153831535, (-12)); (453182508, (-13))];
   [(171159961, (-9)); (124258455, (-9)); (788405624, (-10)); (491467816, (-10)); (306999814, (-10)); (19045834, (-9)); (116169465, (-10)); (691265586, (-11)); (398520556, (-11)); (220841598, (-11)); (116384796, (-11)); (573958822, (-12)); (257781871, (-12)); (100117785, (-12)); (294943626, (-13))];
   [(166212632, (-9)); (122535416, (-9)); (790783215, (-10)); (500515783, (-10)); (317757508, (-10)); (200912371, (-10)); (12534987, (-9)); (766294319, (-11)); (456353949, (-11)); (26316274, (-10)); (145844437, (-11)); (768625638, (-12)); (379054499, (-12)); (170244761, (-12)); (661199763, (-13)); (194787228, (-13))];
   [(161675984, (-9)); (120857065, (-9)); (792178935, (-10)); (508376544, (-10)); (327415005, (-10)); (210477375, (-10)); (133904628, (-10)); (837612314, (-11)); (512563255, (-11)); (305356264, (-11)); (176108222, (-11)); (976023394, (-12)); (514386238, (-12)); (253674676, (-12)); (113932968, (-12)); (442495009, (-13)); (130357543, (-13))];
   [(157495813, (-9)); (119226223, (-9)); (792767352, (-10)); (515226387, (-10)); (336120087, (-10)); (21925468, (-9)); (141885448, (-10)); (905327242, (-11)); (566980754, (-11)); (347109109, (-11)); (206820289, (-11)); (119285611, (-11)); (661112401, (-12)); (348422527, (-12)); (171828197, (-12)); (771732546, (-13)); (29972695, (-12)); (88298553, (-13))];
   [(153627474, (-9)); (117644127, (-9)); (792687848, (-10)); (521208339, (-10)); (343995123, (-10)); (22733158, (-9)); (149340669, (-10)); (969588035, (-11)); (619519161, (-11)); (388198666, (-11)); (237705668, (-11)); (141643711, (-11)); (816962629, (-12)); (452785417, (-12)); (238629519, (-12)); (117682685, (-12)); (528548678, (-13)); (205278741, (-13)); (604744278, (-14))];
   [(150033809, (-9)); (116110948, (-9)); (792052948, (-10)); (526439756, (-10)); (351142271, (-10)); (234783431, (-10)); (156314796, (-10)); (103056504, (-10)); (670146463, (-11)); (428469271, (-11)); (268552435, (-11)); (164458087, (-11)); (980002388, (-12)); (565244865, (-12)); (313276809, (-12)); (16510505, (-11)); (814233279, (-13)); (365696909, (-13)); (142030062, (-13)); (418415798, (-14))];
   [(146683603, (-9)); (114626141, (-9)); (790954371, (-10)); (531017916, (-10)); (357647474, (-10)); (241675463, (-10)); (162848424, (-10)); (108843745, (-10)); (718868427, (-11)); (467814996, (-11)); (299197923, (-11)); (187551307, (-11)); (114859099, (-11)); (684453518, (-12)); (394780424, (-12)); (218800279, (-12)); (115313498, (-12)); (568680943, (-13)); (255411908, (-13)); (991973698, (-14)); (29223213, (-13))];
   [(14355041, (-8)); (113188689, (-9)); (789467519, (-10)); (535024187, (-10)); (363583546, (-10)); (248064324, (-10)); (16897838, (-9)); (114338539, (-10)); (765716384, (-11)); (506166959, (-11)); (329518022, (-11)); (210779583, (-11)); (132134163, (-11)); (809225621, (-12)); (482226839, (-12)); (27814041, (-11)); (154154672, (-12)); (812436032, (-13)); (400662071, (-13)); (179950304, (-13)); (698908441, (-14)); (205922993, (-14))];
   [(140611651, (-9)); (11179727, (-8)); (787654842, (-10)); (53852721, (-9)); (369012618, (-10)); (253999394, (-10)); (174737973, (-10)); (119558501, (-10)); (810738541, (-11)); (543483905, (-11)); (359418932, (-11)); (234026692, (-11)); (149708548, (-11)); (938524175, (-12)); (574783762, (-12)); (342521474, (-12)); (197560912, (-12)); (109494904, (-12)); (577068046, (-13)); (28458904, (-12)); (127820425, (-13)); (496480326, (-14)); (146355998, (-14))];
   [(137847922, (-9)); (11045038, (-8)); (785568414, (-10)); (541585303, (-10)); (373987982, (-10)); (259523825, (-10)); (180157254, (-10)); (124520552, (-10)); (853994009, (-11)); (579745153, (-11)); (388830651, (-11)); (257198922, (-11)); (167483888, (-11)); (107144549, (-11)); (671699504, (-12)); (411373469, (-12)); (245143495, (-12)); (141394927, (-12)); (783658119, (-13)); (413008575, (-13)); (203679647, (-13)); (914787205, (-14)); (355286785, (-14)); (104666292, (-14))];
   [(135242468, (-9)); (109146424, (-9)); (783251937, (-10)); (544248334, (-10)); (378555618, (-10)); (264675469, (-10)); (18526331, (-9)); (129240698, (-10)); (895547615, (-11)); (614944718, (-11)); (417701546, (-11)); (280220699, (-11)); (185377306, (-11)); (120720279, (-11)); (772298434, (-12)); (484164314, (-12)); (296520688, (-12)); (176701163, (-12)); (10191852, (-11)); (564866191, (-13)); (297698937, (-13)); (146813183, (-13)); (659377671, (-14)); (256091315, (-14)); (754429001, (-15))]].

(** utilities.py 453-477 *)
Definition b_Q : list (list (Z * Z)) :=
  [[(14751134849381495, (-16))];
   [(86508615, (-8)); (2674445877, (-8))];
   [(72369789, (-8)); (656251898, (-8)); (24188951974, (-8))];
   [(661598113, (-9)); (358507653, (-8)); (40654395, (-6)); (150259915, (-5))];
   [(626675417, (-9)); (251523207, (-8)); (174704549, (-7)); (200130058, (-6)); (73941274, (-4))];
   [(604267679, (-9)); (198270748, (-8)); (103318189, (-7)); (730667703, (-7)); (837106164, (-6)); (309244471, (-4))];
   [(588652923, (-9)); (16683862, (-7)); (714997233, (-8)); (382243005, (-7)); (270591171, (-6)); (309970819, (-5)); (114505983, (-3))];
   [(577138909, (-9)); (146235483, (-8)); (54234129, (-7)); (240129665, (-7)); (128650391, (-6)); (910672296, (-6)); (10431551, (-3)); (385347387, (-3))];
   [(568292223, (-9)); (131739756, (-8)); (436474383, (-8)); (168305504, (-7)); (747796509, (-7)); (400670467, (-6)); (283606494, (-5)); (324860046, (-4)); (120004827, (-2))];
   [(561279078, (-9)); (121008463, (-8)); (365938357, (-8)); (126773324, (-7)); (491263804, (-7)); (218338, (-3)); (11698107, (-4)); (828009812, (-5)); (948447839, (-4)); (350360802, (-2))];
   [(555581123, (-9)); (112753963, (-8)); (316038928, (-8)); (100435965, (-7)); (350205685, (-7)); (135786493, (-6)); (603483129, (-6)); (323326442, (-5)); (228853649, (-4)); (262141075, (-3)); (968360394, (-2))];
   [(550858966, (-9)); (106212559, (-8)); (279106923, (-8)); (82576683, (-7)); (264546133, (-7)); (923255146, (-7)); (35798781, (-5)); (159098809, (-5)); (852390794, (-5)); (603328955, (-4)); (691084483, (-3)); (255289553, (-1))];
   [(546880974, (-9)); (100903726, (-8)); (250793237, (-8)); (698358314, (-8)); (208614297, (-7)); (669165938, (-7)); (233557562, (-6)); (905592305, (-6)); (402463435, (-5)); (21562373, (-3)); (152620025, (-3)); (174818906, (-2)); (645788464, (-1))];
   [(543483589, (-9)); (965105077, (-9)); (228467213, (-8)); (603785278, (-8)); (170020329, (-7)); (508730855, (-7)); (163211843, (-6)); (569650299, (-6)); (220872597, (-5)); (981597342, (-5)); (525899577, (-4)); (372235348, (-3)); (426377669, (-2)); (15750572, 1)];
   [(540547997, (-9)); (928156233, (-9)); (210453418, (-8)); (53131607, (-7)); (142210313, (-7)); (401291491, (-7)); (120105287, (-6)); (385326438, (-6)); (134487038, (-5)); (521448432, (-5)); (231740523, (-4)); (124156985, (-3)); (878791556, (-3)); (100661338, (-1)); (371847252, 0)];
   [(537985789, (-9)); (896652683, (-9)); (195638816, (-8)); (474319987, (-8)); (121460117, (-7)); (325928353, (-7)); (920054866, (-7)); (275377156, (-6)); (883467203, (-6)); (308346629, (-5)); (119555341, (-4)); (531323727, (-4)); (284661195, (-3)); (20148511, (-1)); (230791482, (-1)); (85255352, 1)];
   [(535729805, (-9)); (869475812, (-9)); (183257556, (-8)); (428511737, (-8)); (105528354, (-7)); (271050303, (-7)); (727704479, (-7)); (205432895, (-6)); (614867611, (-6)); (197260977, (-5)); (68847563, (-4)); (266942568, (-4)); (11863365, (-2)); (635589774, (-3)); (449874709, (-2)); (51530979, 0); (190357621, 1)];
   [(533728106, (-9)); (84579297, (-8)); (172766783, (-8)); (391015978, (-8)); (930008641, (-8)); (229840397, (-7)); (590722445, (-7)); (158608247, (-6)); (447755113, (-6)); (134013739, (-5)); (429939475, (-5)); (150056243, (-4)); (581812571, (-4)); (258566993, (-3)); (138529437, (-2)); (980520645, (-2)); (112313912, 0); (414892355, 1)];
   [(531939889, (-9)); (824971801, (-9)); (1637718, (-6)); (359841172, (-8)); (829495341, (-8)); (198088089, (-7)); (489935581, (-7)); (125935868, (-6)); (33813867, (-5)); (954568527, (-6)); (285702593, (-5)); (91658218, (-4)); (319902665, (-4)); (124035724, (-3)); (551234936, (-3)); (295328739, (-2)); (20903566, 0); (23944027, 1); (88450251, 2)];
   [(53033265, (-8)); (806523567, (-9)); (155979241, (-8)); (333569866, (-8)); (747445459, (-8)); (173083833, (-7)); (413724934, (-7)); (102344439, (-6)); (263076444, (-6)); (706358971, (-6)); (199404968, (-5)); (59681834, (-4)); (191469242, (-4)); (668259783, (-4)); (259104051, (-3)); (115150051, (-2)); (616926048, (-2)); (436664387, (-1)); (500177999, 0); (184767871, 2)];
   [(528880175, (-9)); (790064646, (-9)); (149166818, (-8)); (311169123, (-8)); (679460687, (-8)); (153022232, (-7)); (354744802, (-7)); (848133183, (-7)); (209811327, (-6)); (539318941, (-6)); (144806292, (-5)); (408786889, (-5)); (122349644, (-4)); (392517841, (-4)); (136995296, (-3)); (531171201, (-3)); (236061113, (-2)); (126471714, (-1)); (895175167, (-1)); (102537996, 1); (378779667, 2)];
   [(527561086, (-9)); (77528977, (-8)); (143163225, (-8)); (291870531, (-8)); (622392126, (-8)); (136663812, (-7)); (308180875, (-7)); (714633096, (-7)); (170863574, (-6)); (422682886, (-6)); (108650017, (-5)); (291722891, (-5)); (823530196, (-5)); (246481913, (-4)); (790754456, (-4)); (275986521, (-3)); (107008124, (-2)); (475561505, (-2)); (25478607, 0); (180339276, 0); (206569949, 1); (763078699, 2)];
   [(526357773, (-9)); (761953003, (-9)); (137834431, (-8)); (275091946, (-8)); (57393569, (-7)); (123135225, (-7)); (270778648, (-7)); (61081225, (-6)); (141648012, (-6)); (338671568, (-6)); (837804176, (-6)); (215355779, (-5)); (578224688, (-5)); (16323202, (-3)); (48855197, (-3)); (156735488, (-3)); (547033061, (-3)); (212100871, (-2)); (942610747, (-2)); (505011626, (-1)); (357450664, 0); (409442418, 1); (151249719, 3)];
   [(525255604, (-9)); (749854068, (-9)); (133074174, (-8)); (260385218, (-8)); (532372895, (-8)); (11180697, (-6)); (240278084, (-7)); (52858481, (-6)); (119245289, (-6)); (276533587, (-6)); (661173063, (-6)); (16356028, (-4)); (420427626, (-5)); (112883658, (-4)); (318668911, (-4)); (953773075, (-4)); (305986021, (-3)); (106794226, (-2)); (414072713, (-2)); (184020642, (-1)); (985906029, (-1)); (697830919, 0); (799331715, 1); (295276609, 3)];
   [(524242327, (-9)); (738828327, (-9)); (128797215, (-8)); (247400433, (-8)); (496400225, (-8)); (102216181, (-7)); (215072525, (-7)); (462410786, (-7)); (101735082, (-6)); (229511118, (-6)); (532243145, (-6)); (127255497, (-5)); (314803038, (-5)); (809193378, (-5)); (217266328, (-4)); (613340152, (-4)); (183572221, (-3)); (588930254, (-3)); (205546784, (-2)); (796968224, (-2)); (354186923, (-1)); (18976015, 1); (13431402, 2); (153849689, 2); (568317516, 3)]].

Local Open Scope R_scope.

Definition decimal (d : Z * Z) : R := IZR (fst d) * powerRZ 10 (snd d).

(** utilities.py 479-480 *)
Definition a_erf (a : list (Z * Z)) : list R := 1 :: map (fun d => -2 * decimal d) a.
Definition b_erf (b : list (Z * Z)) : list R := 0 :: map (fun d => decimal d * 2) b.

(** utilities.py 483-514: _erf_coeffs.  None is an IndexError.  (Python also accepts
    negative numbers, which count from the end.) *)
Definition erf_coeffs (N : nat) : option (list (R * R)) :=
  match nth_error a_Q N, nth_error b_Q N with
  | Some a, Some b => Some (combine (a_erf a) (b_erf b))
  | _, _ => None
  end.
