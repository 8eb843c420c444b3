(** Generated from the tables of mat/internal/rand/normal.go, entry by entry, by tools/normal2coq.py.
    (m, k) is the decimal literal m * 10^-k. *)
From Coq Require Import ZArith List.
Import ListNotations.
Local Open Scope Z_scope.

(** kn: mat/internal/rand/normal.go:67-94 *)
Definition kn_table : list Z := [
  1991057938; 0; 1611602771; 1826899878; 1918584482; 1969227037; 2001281515; 2023368125;
  2039498179; 2051788381; 2061460127; 2069267110; 2075699398; 2081089314; 2085670119; 2089610331;
  2093034710; 2096037586; 2098691595; 2101053571; 2103168620; 2105072996; 2106796166; 2108362327;
  2109791536; 2111100552; 2112303493; 2113412330; 2114437283; 2115387130; 2116269447; 2117090813;
  2117856962; 2118572919; 2119243101; 2119871411; 2120461303; 2121015852; 2121537798; 2122029592;
  2122493434; 2122931299; 2123344971; 2123736059; 2124106020; 2124456175; 2124787725; 2125101763;
  2125399283; 2125681194; 2125948325; 2126201433; 2126441213; 2126668298; 2126883268; 2127086657;
  2127278949; 2127460589; 2127631985; 2127793506; 2127945490; 2128088244; 2128222044; 2128347141;
  2128463758; 2128572095; 2128672327; 2128764606; 2128849065; 2128925811; 2128994934; 2129056501;
  2129110560; 2129157136; 2129196237; 2129227847; 2129251929; 2129268426; 2129277255; 2129278312;
  2129271467; 2129256561; 2129233410; 2129201800; 2129161480; 2129112170; 2129053545; 2128985244;
  2128906855; 2128817916; 2128717911; 2128606255; 2128482298; 2128345305; 2128194452; 2128028813;
  2127847342; 2127648860; 2127432031; 2127195339; 2126937058; 2126655214; 2126347546; 2126011445;
  2125643893; 2125241376; 2124799783; 2124314271; 2123779094; 2123187386; 2122530867; 2121799464;
  2120980787; 2120059418; 2119015917; 2117825402; 2116455471; 2114863093; 2112989789; 2110753906;
  2108037662; 2104664315; 2100355223; 2094642347; 2086670106; 2074676188; 2054300022; 2010539237].
(** wn: mat/internal/rand/normal.go:95-128 *)
Definition wn_table : list (Z * Z) := [
  (17290405, 16); (12680929, 17); (16897518, 17); (19862688, 17); (22232431, 17); (24244937, 17);
  (2601613, 16); (27611988, 17); (29073963, 17); (3042997, 16); (31699796, 17); (3289802, 16);
  (34035738, 17); (35121603, 17); (3616251, 16); (37164058, 17); (38130857, 17); (39066758, 17);
  (39975012, 17); (408584, 15); (41719309, 17); (42559822, 17); (4338176, 16); (4418672, 16);
  (4497613, 16); (45751258, 17); (4651324, 16); (47263105, 17); (48001775, 17); (487301, 15);
  (4944885, 16); (5015873, 16); (50860405, 17); (5155446, 16); (52241467, 17); (52921934, 17);
  (5359635, 16); (5426517, 16); (54928817, 17); (55587696, 17); (5624219, 16); (56892646, 17);
  (5753941, 16); (5818282, 16); (5882317, 16); (5946077, 16); (600959, 15); (6072884, 16);
  (6135985, 16); (619892, 15); (62617134, 17); (63243905, 17); (6386974, 16); (6449488, 16);
  (6511956, 16); (65744005, 17); (66368433, 17); (6699307, 16); (67618144, 17); (6824387, 16);
  (68870465, 17); (6949815, 16); (7012715, 16); (7075768, 16); (71389966, 17); (7202424, 16);
  (7266073, 16); (7329966, 16); (7394128, 16); (74585826, 17); (75233547, 17); (758847, 15);
  (7653954, 16); (7719835, 16); (77861395, 17); (7852897, 16); (7920138, 16); (7987892, 16);
  (80561924, 17); (8125073, 16); (8194569, 16); (82647167, 17); (83355556, 17); (8407127, 16);
  (8479473, 16); (855264, 15); (86266755, 17); (87016316, 17); (8777562, 16); (88545243, 17);
  (8932582, 16); (90117996, 17); (909225, 15); (9174008, 16); (92571584, 17); (9341788, 16);
  (9427997, 16); (9515889, 16); (9605579, 16); (9697193, 16); (9790869, 16); (988676, 15);
  (9985036, 16); (10085882, 16); (10189509, 16); (10296151, 16); (10406069, 16); (10519566, 16);
  (1063698, 15); (10758702, 16); (10885183, 16); (11016947, 16); (11154611, 16); (11298902, 16);
  (11450696, 16); (11611052, 16); (11781276, 16); (11962995, 16); (12158287, 16); (12369856, 16);
  (12601323, 16); (12857697, 16); (13146202, 16); (1347784, 15); (13870636, 16); (14357403, 16);
  (15008659, 16); (16030948, 16)].
(** fn: mat/internal/rand/normal.go:129-156 *)
Definition fn_table : list (Z * Z) := [
  (1, 0); (9635997, 7); (9362827, 7); (9130436, 7); (89228165, 8); (87324303, 8);
  (8555006, 7); (8387836, 7); (8229072, 7); (8077383, 7); (793177, 6); (7791461, 7);
  (7655842, 7); (7524416, 7); (73967725, 8); (7272569, 7); (7151515, 7); (7033361, 7);
  (69178915, 8); (68049186, 8); (6694277, 7); (658582, 6); (6479418, 7); (63749546, 8);
  (6272325, 7); (6171434, 7); (6072195, 7); (5974532, 7); (58783704, 8); (5783647, 7);
  (56903, 5); (5598274, 7); (5507518, 7); (54179835, 8); (5329627, 7); (52424055, 8);
  (5156282, 7); (50712204, 8); (49871865, 8); (49041483, 8); (48220766, 8); (4740943, 7);
  (46607214, 8); (4581387, 7); (45029163, 8); (44252872, 8); (43484783, 8); (427247, 6);
  (41972435, 8); (41227803, 8); (40490642, 8); (39760786, 8); (3903808, 7); (3832238, 7);
  (37613547, 8); (36911446, 8); (3621595, 7); (35526937, 8); (34844297, 8); (34167916, 8);
  (33497685, 8); (3283351, 7); (3217529, 7); (3152294, 7); (30876362, 8); (30235484, 8);
  (29600215, 8); (28970486, 8); (2834622, 7); (2772735, 7); (27113807, 8); (2650553, 7);
  (25902456, 8); (2530453, 7); (24711695, 8); (241239, 6); (23541094, 8); (22963232, 8);
  (2239027, 7); (21822165, 8); (21258877, 8); (20700371, 8); (20146611, 8); (19597565, 8);
  (19053204, 8); (18513499, 8); (17978427, 8); (17447963, 8); (1692209, 7); (16400786, 8);
  (15884037, 8); (15371831, 8); (14864157, 8); (14361008, 8); (13862377, 8); (13368265, 8);
  (12878671, 8); (12393598, 8); (119130544, 9); (11437051, 8); (10965602, 8); (104987256, 9);
  (10036444, 8); (95787846, 9); (912578, 7); (8677467, 8); (823389, 7); (77950984, 9);
  (73611505, 9); (6932112, 8); (6508058, 8); (6089077, 8); (56752663, 9); (526674, 7);
  (48636295, 9); (44660863, 9); (40742867, 9); (3688439, 8); (33087887, 9); (29356318, 9);
  (25693292, 9); (22103304, 9); (18592102, 9); (15167298, 9); (11839478, 9); (8624485, 9);
  (5548995, 9); (26696292, 10)].
