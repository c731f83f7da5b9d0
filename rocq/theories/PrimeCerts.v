(** Pocklington certificates for the primes of Primes.v (generated). An entry is (n, a, [(q, k, u)]): a^(n-1) = 1 and
    (a^((n-1)/q) - 1) u = 1 modulo n, and the product of the q^k divides n - 1 and is at least the square root of n. The q are below 1024 or
    occur as the n of an earlier entry. *)
From Coq Require Import Uint63 List.
Import ListNotations.
Open Scope uint63_scope.
Definition entry : Type := (int * int * list (int * nat * int))%type.
Definition certs_0 : list entry := [
  (319279, 3, [(2, 1%nat, 159639); (419, 1%nat, 119895)]);
  (9223372036854775783, 2, [(3, 4%nat, 6305012532658979832); (17, 1%nat, 1056236223296425324); (23, 1%nat, 8147993896161700657); (319279, 1%nat, 4023264432752079699)]);
  (1115780248529, 2, [(11, 2%nat, 418136308667); (71, 1%nat, 728892057096); (229, 1%nat, 803355659913)]);
  (9223372036854775643, 2, [(1115780248529, 1%nat, 1057097128402452078)]);
  (11311, 2, [(5, 1%nat, 6560); (29, 1%nat, 9120)]);
  (67867, 2, [(11311, 1%nat, 63558)]);
  (252736709, 2, [(67867, 1%nat, 71305059)]);
  (342062455008707, 2, [(252736709, 1%nat, 161949653080207)]);
  (9223372036854775549, 2, [(342062455008707, 1%nat, 567953821112862903)]);
  (3049, 2, [(127, 1%nat, 445)]);
  (9223372036854775507, 2, [(23, 1%nat, 2976034982166714829); (29, 1%nat, 7382579254974193013); (37, 1%nat, 2825598799832267061); (79, 1%nat, 7578255951080704701); (3049, 1%nat, 107936009141633418)]);
  (3853, 2, [(107, 1%nat, 1765)]);
  (254299, 2, [(3853, 1%nat, 58726)]);
  (458235892133087, 5, [(2, 1%nat, 229117946066543); (59, 1%nat, 100570032458307); (254299, 1%nat, 325285012603605)]);
  (31160040665049917, 2, [(458235892133087, 1%nat, 3783959721688798)]);
  (9223372036854775433, 2, [(31160040665049917, 1%nat, 997850859115701962)]);
  (49814209, 17, [(2, 6%nat, 24907104); (197, 1%nat, 37486337)]);
  (63961444357, 2, [(49814209, 1%nat, 18992853780)]);
  (9223372036854775421, 2, [(63961444357, 1%nat, 7504190968265309295)]);
  (2017, 5, [(2, 5%nat, 1008); (3, 2%nat, 1246)]);
  (8069, 2, [(2017, 1%nat, 538)]);
  (1073741831, 2, [(5, 1%nat, 338071394); (8069, 1%nat, 387128723)]);
  (9223372036854775417, 5, [(2, 3%nat, 4611686018427387708); (1073741831, 1%nat, 523112582001698584)]);
  (349408270177, 5, [(2, 5%nat, 174704135088); (3, 1%nat, 183332700476); (7, 2%nat, 226307729752); (313, 1%nat, 240188273164)]);
  (108316563754871, 2, [(349408270177, 1%nat, 45631914612180)]);
  (1537228672809129233, 2, [(108316563754871, 1%nat, 1273183140483288255)]);
  (9223372036854775399, 2, [(1537228672809129233, 1%nat, 1610430038180992530)]);
  (178361, 3, [(2, 3%nat, 89180); (7, 3%nat, 73528)]);
  (128908064805797, 2, [(2, 2%nat, 64454032402898); (37, 1%nat, 106240823564412); (178361, 1%nat, 2637791222912)]);
  (9223372036854775351, 2, [(128908064805797, 1%nat, 7985634753407510075)]);
  (1801, 11, [(2, 3%nat, 900); (3, 2%nat, 24)]);
  (266549, 2, [(1801, 1%nat, 157336)]);
  (9223372036854775337, 2, [(43, 1%nat, 4832175301368997030); (281, 1%nat, 291274269462279501); (266549, 1%nat, 8178092809071615705)]);
  (1010623, 3, [(3, 1%nat, 700221); (389, 1%nat, 706518)]);
  (14565365480473, 5, [(2, 3%nat, 7282682740236); (1010623, 1%nat, 6355278394018)]);
  (174784385765677, 2, [(14565365480473, 1%nat, 103803571717247)]);
  (9223372036854775291, 2, [(174784385765677, 1%nat, 5981648156903128947)]);
  (1049, 2, [(131, 1%nat, 868)]);
  (2099, 2, [(1049, 1%nat, 700)]);
  (205703, 2, [(2099, 1%nat, 151600)]);
  (658249601, 2, [(205703, 1%nat, 373691202)]);
  (1316499203, 2, [(658249601, 1%nat, 438833068)]);
  (15797990437, 2, [(1316499203, 1%nat, 6199602108)]);
  (512409557603043071, 2, [(15797990437, 1%nat, 152378031412241102)]);
  (9223372036854775279, 2, [(512409557603043071, 1%nat, 5968066328818166773)]);
  (69941, 2, [(269, 1%nat, 12105)]);
  (139883, 2, [(69941, 1%nat, 46628)]);
  (165003614384321, 2, [(101, 1%nat, 52247669946567); (139883, 1%nat, 55845260297130)]);
  (9223372036854775259, 2, [(165003614384321, 1%nat, 6335994302529393456)]);
  (1191461923, 6, [(3, 2%nat, 1103282519); (7, 1%nat, 415962448); (883, 1%nat, 864091015)]);
  (9223372036854775181, 2, [(2, 2%nat, 4611686018427387590); (1191461923, 1%nat, 1682941424115190110)]);
  (3287995637, 2, [(2, 2%nat, 1643997818); (23, 1%nat, 3195762352); (701, 1%nat, 3142134423)]);
  (9223372036854775159, 2, [(3287995637, 1%nat, 2605025528942544451)]);
  (6421, 2, [(107, 1%nat, 1062)]);
  (1528199, 2, [(6421, 1%nat, 1017379)]);
  (9223372036854775139, 2, [(23, 1%nat, 8123128248572146339); (331, 1%nat, 4680887278395109948); (1528199, 1%nat, 6615324118436415737)]);
  (616459, 2, [(809, 1%nat, 82042)]);
  (17160985643, 2, [(616459, 1%nat, 5266219347)]);
  (9223372036854775097, 2, [(17160985643, 1%nat, 645222722141726330)]);
  (209563, 2, [(659, 1%nat, 155694)]);
  (9223372036854775073, 5, [(2, 5%nat, 4611686018427387536); (7, 2%nat, 8460095612445849149); (13, 1%nat, 3321698144146703731); (209563, 1%nat, 3444196216442925137)]);
  (35999, 2, [(439, 1%nat, 34323)]);
  (719981, 2, [(35999, 1%nat, 546593)]);
  (16486124939, 2, [(719981, 1%nat, 14669210063)]);
  (9223372036854775057, 2, [(16486124939, 1%nat, 5897692489993052882)]);
  (7512569221, 3, [(13, 1%nat, 4148276885); (19, 1%nat, 3192384670); (449, 1%nat, 2562288492)]);
  (9223372036854774959, 2, [(7512569221, 1%nat, 8784716384067513037)]);
  (1619, 2, [(809, 1%nat, 540)]);
  (4465839887, 2, [(197, 1%nat, 843836280); (1619, 1%nat, 1394311264)]);
  (9223372036854774937, 2, [(4465839887, 1%nat, 4781814249207580761)]);
  (1427, 2, [(2, 1%nat, 713); (23, 1%nat, 1014)]);
  (234029, 2, [(1427, 1%nat, 103531)]);
  (468059, 2, [(234029, 1%nat, 156020)]);
  (936119, 2, [(468059, 1%nat, 312040)]);
  (1872239, 2, [(936119, 1%nat, 624080)]);
  (7777280807, 2, [(1872239, 1%nat, 5246712414)]);
  (718107446033539, 2, [(7777280807, 1%nat, 427551310151070)]);
  (9223372036854774917, 2, [(718107446033539, 1%nat, 1885066289784786)]);
  (10781, 2, [(2, 2%nat, 5390); (7, 2%nat, 9946)]);
  (776233, 2, [(10781, 1%nat, 35133)]);
  (17077127, 2, [(776233, 1%nat, 6077593)]);
  (2305843009213693723, 2, [(479, 1%nat, 1765989422696836579); (17077127, 1%nat, 113016431186689303)]);
  (9223372036854774893, 2, [(2305843009213693723, 1%nat, 7993589098607471574)]);
  (3096047114161, 19, [(2, 4%nat, 1548023557080); (13, 1%nat, 2036520876046); (17, 1%nat, 2577119817916); (557, 1%nat, 1770200727229)]);
  (402486124840931, 2, [(3096047114161, 1%nat, 109932559656848)]);
  (9223372036854774797, 2, [(402486124840931, 1%nat, 533655691823263939)]);
  (11867551, 2, [(3, 1%nat, 8934155); (5, 2%nat, 9214059); (61, 1%nat, 8772741)]);
  (427231837, 2, [(11867551, 1%nat, 317002101)]);
  (153553957927193, 2, [(427231837, 1%nat, 12641107104886)]);
  (9223372036854774739, 2, [(153553957927193, 1%nat, 7899603984304034008)]);
  (30637, 2, [(3, 2%nat, 2538); (23, 1%nat, 6031)]);
  (183823, 2, [(30637, 1%nat, 67110)]);
  (2101096891, 2, [(183823, 1%nat, 631991494)]);
  (15793445268586943, 2, [(2101096891, 1%nat, 911060313428702)]);
  (9223372036854774713, 2, [(15793445268586943, 1%nat, 2620896396375087118)]);
  (11950754611, 5, [(3, 1%nat, 8313156627); (5, 1%nat, 10437356446); (61, 1%nat, 41575274); (127, 1%nat, 6549207781)]);
  (6076002659324621, 2, [(11950754611, 1%nat, 6042838247733781)]);
  (9223372036854774679, 2, [(6076002659324621, 1%nat, 8179565682331881861)]);
  (3431473, 2, [(67, 1%nat, 272528); (97, 1%nat, 1854117)]);
  (208228644587, 2, [(3431473, 1%nat, 10165650373)]);
  (9223372036854774629, 2, [(208228644587, 1%nat, 2794294184442845759)]);
  (2450551, 3, [(2, 1%nat, 1225275); (31, 2%nat, 1273465)]);
  (90596870471, 2, [(2450551, 1%nat, 78853168420)]);
  (200508087757712491, 2, [(90596870471, 1%nat, 52293849563137875)]);
  (9223372036854774587, 2, [(200508087757712491, 1%nat, 4686516573762552251)]);
  (1031047, 3, [(2, 1%nat, 515523); (719, 1%nat, 495058)]);
  (4124189, 2, [(1031047, 1%nat, 274946)]);
  (9223372036854774571, 2, [(41, 2%nat, 6780413884732339192); (4124189, 1%nat, 8366734959657814199)]);
  (9223372036854774559, 2, [(3, 2%nat, 2246806178801768149); (17, 1%nat, 2370301620150885660); (79, 1%nat, 8727683075027562775); (457, 1%nat, 7832253881630973635); (967, 1%nat, 4246633810027468884)]);
  (47279, 2, [(307, 1%nat, 45720)]);
  (13332679, 2, [(47279, 1%nat, 2219763)]);
  (159992149, 2, [(13332679, 1%nat, 90095701)]);
  (9223372036854774511, 2, [(347, 1%nat, 3789396227943977902); (159992149, 1%nat, 5078597546365190343)]);
  (26407, 2, [(163, 1%nat, 25879)]);
  (1219919, 14, [(2, 1%nat, 609959); (7, 1%nat, 44486); (79, 1%nat, 1015656)]);
  (9223372036854774509, 2, [(26407, 1%nat, 7829543979048599531); (1219919, 1%nat, 5973899817231636701)]);
  (11697761, 3, [(2, 5%nat, 5848880); (113, 1%nat, 9224401)]);
  (75169812187, 2, [(11697761, 1%nat, 63270725653)]);
  (372842268447521, 2, [(75169812187, 1%nat, 173237006933111)]);
  (9223372036854774499, 2, [(372842268447521, 1%nat, 5038519579868056953)]);
  (561667, 3, [(3, 1%nat, 71611); (311, 1%nat, 551205)]);
  (4615779407, 2, [(561667, 1%nat, 3794451914)]);
  (9223372036854774451, 2, [(4615779407, 1%nat, 8899222330793636174)]);
  (229399, 7, [(3, 1%nat, 176439); (173, 1%nat, 60846)]);
  (954758639, 2, [(229399, 1%nat, 140004689)]);
  (9223372036854774413, 2, [(2, 2%nat, 4611686018427387206); (954758639, 1%nat, 3760374906113026372)]);
  (1487, 2, [(743, 1%nat, 496)]);
  (98143, 2, [(1487, 1%nat, 57237)]);
  (297962149, 2, [(98143, 1%nat, 255323738)]);
  (9223372036854774341, 2, [(2, 2%nat, 4611686018427387170); (5, 1%nat, 8148612162321480751); (297962149, 1%nat, 4210081561699892119)]);
  (461599, 2, [(719, 1%nat, 260593)]);
  (800412667, 2, [(461599, 1%nat, 168272964)]);
  (9223372036854774319, 2, [(13, 1%nat, 8685182795188763431); (800412667, 1%nat, 7928653198686259369)]);
  (7069, 2, [(2, 2%nat, 3534); (31, 1%nat, 2187)]);
  (28277, 2, [(7069, 1%nat, 13196)]);
  (508987, 2, [(28277, 1%nat, 207301)]);
  (7099150135123, 2, [(3, 3%nat, 5859909516609); (508987, 1%nat, 778356229379)]);
  (9223372036854774307, 2, [(7099150135123, 1%nat, 8204324932381488800)]);
  (33161, 2, [(829, 1%nat, 2900)]);
  (198967, 2, [(33161, 1%nat, 91588)]);
  (1989671, 2, [(198967, 1%nat, 31119)]);
  (11938027, 2, [(1989671, 1%nat, 378985)]);
  (47752109, 2, [(11938027, 1%nat, 3183474)]);
  (156158946851801, 2, [(47752109, 1%nat, 11421965213691)]);
  (768614336404564523, 2, [(156158946851801, 1%nat, 210794643171440466)]);
  (9223372036854774277, 2, [(768614336404564523, 1%nat, 1186988293876060084)]);
  (1033, 2, [(43, 1%nat, 138)]);
  (10331, 2, [(1033, 1%nat, 7160)]);
  (61987, 2, [(10331, 1%nat, 37389)]);
  (351714239, 2, [(61987, 1%nat, 302762639)]);
  (9223372036854774257, 3, [(2, 4%nat, 4611686018427387128); (351714239, 1%nat, 9007157360838024788)]);
  (15959, 11, [(2, 1%nat, 7979); (79, 1%nat, 15838)]);
  (4628111, 2, [(15959, 1%nat, 3792685)]);
  (4817252640349, 2, [(4628111, 1%nat, 3801750947561)]);
  (9223372036854774247, 2, [(4817252640349, 1%nat, 167235490450018564)]);
  (10909, 2, [(2, 2%nat, 5454); (3, 3%nat, 4183)]);
  (50741, 2, [(2, 2%nat, 25370); (59, 1%nat, 37463)]);
  (101483, 2, [(50741, 1%nat, 33828)]);
  (8668582741404863, 2, [(10909, 1%nat, 1340617849194418); (101483, 1%nat, 7703889287990611)]);
  (9223372036854774233, 2, [(8668582741404863, 1%nat, 9173085930481379065)]);
  (11953917379, 2, [(3, 2%nat, 3153080768); (13, 1%nat, 3697373868); (31, 1%nat, 7439360156); (107, 1%nat, 4545252241)]);
  (9223372036854774199, 2, [(11953917379, 1%nat, 6395665817076335942)]);
  (1031, 2, [(103, 1%nat, 902)]);
  (2063, 2, [(1031, 1%nat, 688)]);
  (12379, 2, [(2063, 1%nat, 393)]);
  (16389797, 2, [(12379, 1%nat, 5314689)]);
  (1894234398479, 2, [(16389797, 1%nat, 878979656144)]);
  (9223372036854774179, 2, [(1894234398479, 1%nat, 751905939543550668)]);
  (148091, 2, [(2, 1%nat, 74045); (251, 1%nat, 4564)]);
  (9223372036854774173, 2, [(2, 2%nat, 4611686018427387086); (23, 1%nat, 6852190149642257465); (313, 1%nat, 3005286598171466384); (148091, 1%nat, 8967197362076583467)]);
  (115223644243, 2, [(2, 1%nat, 57611822121); (3, 2%nat, 34805663144); (7, 1%nat, 51768261161); (17, 1%nat, 25506014894); (211, 1%nat, 47611562740)]);
  (9223372036854774053, 2, [(115223644243, 1%nat, 5008578280223176689)]);
  (1609, 2, [(67, 1%nat, 290)]);
  (236290721854147, 3, [(2, 1%nat, 118145360927073); (3, 1%nat, 20860841334339); (41, 1%nat, 77462056997340); (53, 1%nat, 61015082222151); (1609, 1%nat, 43182273263970)]);
  (9223372036854773999, 2, [(236290721854147, 1%nat, 5070206319144728670)]);
  (158329, 2, [(733, 1%nat, 74006)]);
  (769162283, 2, [(158329, 1%nat, 707965473)]);
  (9223372036854773977, 5, [(2, 3%nat, 4611686018427386988); (769162283, 1%nat, 4092731215030181948)]);
  (11489, 2, [(359, 1%nat, 3009)]);
  (689341, 2, [(11489, 1%nat, 614737)]);
  (9223372036854773953, 10, [(2, 6%nat, 4611686018427386976); (7, 1%nat, 3390715067855908459); (11, 1%nat, 9192320547617606418); (689341, 1%nat, 8012605210482207801)]);
  (107137, 5, [(2, 7%nat, 53568); (3, 3%nat, 18000)]);
  (256485979, 2, [(107137, 1%nat, 233283143)]);
  (1537228672809128983, 3, [(3, 2%nat, 529775989731476501); (256485979, 1%nat, 1257297001247524302)]);
  (9223372036854773899, 2, [(1537228672809128983, 1%nat, 3367262807105711106)]);
  (138821, 2, [(631, 1%nat, 72408)]);
  (277643, 2, [(138821, 1%nat, 92548)]);
  (262400954587, 2, [(2, 1%nat, 131200477293); (277643, 1%nat, 170049950843)]);
  (9223372036854773867, 2, [(262400954587, 1%nat, 3014383981002671861)]);
  (56760061, 2, [(149, 1%nat, 34366686); (907, 1%nat, 33324721)]);
  (6811207321, 2, [(56760061, 1%nat, 5163217456)]);
  (3761570977510103, 2, [(6811207321, 1%nat, 3462398747018781)]);
  (7523141955020207, 2, [(3761570977510103, 1%nat, 2507713985006736)]);
  (9223372036854773783, 2, [(7523141955020207, 1%nat, 4385843706948408712)]);
  (2027, 2, [(1013, 1%nat, 676)]);
  (1003194696199127, 2, [(131, 1%nat, 91431691051220); (397, 1%nat, 409189067550481); (2027, 1%nat, 127908320494531)]);
  (9223372036854773639, 2, [(1003194696199127, 1%nat, 2860633156119213798)]);
  (31817, 3, [(2, 3%nat, 15908); (41, 1%nat, 10425)]);
  (3690773, 2, [(31817, 1%nat, 2037126)]);
  (1092468809, 2, [(3690773, 1%nat, 346723236)]);
  (9223372036854773561, 3, [(2, 3%nat, 4611686018427386780); (1092468809, 1%nat, 7719991703308292462)]);
  (9133, 2, [(761, 1%nat, 2460)]);
  (9223372036854773557, 2, [(11, 1%nat, 52980142685426294); (199, 1%nat, 758631546428634652); (293, 1%nat, 8654481164475036118); (9133, 1%nat, 6010401205968574091)]);
  (1319, 2, [(659, 1%nat, 440)]);
  (24980145301, 7, [(3, 2%nat, 12222099794); (5, 2%nat, 11797640983); (1319, 1%nat, 20969845681)]);
  (9223372036854773519, 2, [(24980145301, 1%nat, 8089840401083862517)]);
  (1889, 2, [(59, 1%nat, 1774)]);
  (763157, 2, [(1889, 1%nat, 501003)]);
  (28999967, 2, [(763157, 1%nat, 6851739)]);
  (148764065110560863, 2, [(43, 1%nat, 67219644808659036); (28999967, 1%nat, 117772137343659736)]);
  (9223372036854773507, 2, [(148764065110560863, 1%nat, 6735990278329345245)]);
  (3043871, 2, [(3853, 1%nat, 964343)]);
  (17094379537, 2, [(3043871, 1%nat, 8678578569)]);
  (9223372036854773489, 2, [(17094379537, 1%nat, 941784252251060287)]);
  (15161, 2, [(379, 1%nat, 10966)]);
  (13190071, 2, [(15161, 1%nat, 5138077)]);
  (17236468221097, 2, [(13190071, 1%nat, 14975863234574)]);
  (9223372036854773477, 2, [(17236468221097, 1%nat, 4861206783289426549)]);
  (115837, 2, [(2, 2%nat, 57918); (197, 1%nat, 13112)]);
  (5650297187, 2, [(115837, 1%nat, 1644271675)])].
Definition certs_1 : list entry := [
  (9223372036854773443, 2, [(5650297187, 1%nat, 691382949314868990)]);
  (24373, 2, [(677, 1%nat, 17161)]);
  (4357, 2, [(11, 2%nat, 3605)]);
  (278849, 2, [(4357, 1%nat, 64805)]);
  (9223372036854773429, 2, [(24373, 1%nat, 99994840315874684); (278849, 1%nat, 8892128733274768630)]);
  (96149, 2, [(43, 2%nat, 11147)]);
  (1730683, 2, [(96149, 1%nat, 150857)]);
  (9223372036854773407, 2, [(3, 3%nat, 8811669195172780217); (241, 1%nat, 4400629860029650632); (1730683, 1%nat, 4772650131781408927)]);
  (471697, 5, [(2, 4%nat, 235848); (317, 1%nat, 315901)]);
  (9223372036854773353, 2, [(3, 4%nat, 8407834211489993634); (131, 1%nat, 5913032659952448177); (471697, 1%nat, 6322090346779088149)]);
  (3593, 2, [(449, 1%nat, 1874)]);
  (21559, 2, [(3593, 1%nat, 9924)]);
  (104255831443, 2, [(97, 1%nat, 20962544179); (21559, 1%nat, 9566109751)]);
  (9223372036854773293, 2, [(104255831443, 1%nat, 4419303427011672062)]);
  (366676507, 2, [(7, 2%nat, 282476580); (439, 1%nat, 17869035)]);
  (16867119323, 2, [(366676507, 1%nat, 3866267968)]);
  (9223372036854773173, 2, [(16867119323, 1%nat, 1733527374182415829)]);
  (38921, 3, [(2, 3%nat, 19460); (139, 1%nat, 38640)]);
  (36953204525933, 2, [(181, 1%nat, 1382562809495); (38921, 1%nat, 1535985020953)]);
  (9223372036854773069, 2, [(36953204525933, 1%nat, 8390707759101911533)]);
  (55677031, 2, [(19, 2%nat, 4750914); (53, 1%nat, 15728891)]);
  (3759424487183, 2, [(55677031, 1%nat, 469668067654)]);
  (10902331012830701, 2, [(3759424487183, 1%nat, 4561013328897756)]);
  (9223372036854773047, 2, [(10902331012830701, 1%nat, 6312653833045979350)]);
  (19859473969, 21, [(2, 4%nat, 9929736984); (3, 1%nat, 13491864929); (53, 1%nat, 694425054); (137, 1%nat, 8987642846)]);
  (9223372036854772961, 2, [(19859473969, 1%nat, 4148327892975714172)]);
  (2593, 2, [(3, 4%nat, 1349)]);
  (834947, 2, [(2593, 1%nat, 599780)]);
  (1073741843, 2, [(834947, 1%nat, 722436674)]);
  (256204778801521471, 2, [(1073741843, 1%nat, 60549151232243335)]);
  (9223372036854772957, 2, [(256204778801521471, 1%nat, 3258333657564412644)]);
  (26896929341, 2, [(19, 1%nat, 15637431469); (79, 1%nat, 2767136891); (173, 1%nat, 2219900992)]);
  (9223372036854772949, 2, [(26896929341, 1%nat, 4361748597802430626)]);
  (824801, 2, [(1031, 1%nat, 360895)]);
  (16496021, 2, [(824801, 1%nat, 708232)]);
  (4363197554501, 2, [(16496021, 1%nat, 3906541916861)]);
  (9223372036854772903, 2, [(4363197554501, 1%nat, 9141283772833675516)]);
  (177601, 11, [(2, 6%nat, 88800); (5, 2%nat, 145914)]);
  (1776011, 2, [(177601, 1%nat, 855888)]);
  (7739855939, 2, [(1776011, 1%nat, 1066105570)]);
  (9223372036854772847, 2, [(7739855939, 1%nat, 1787370488192610825)]);
  (1367, 2, [(683, 1%nat, 456)]);
  (1921535841011411, 3, [(13, 1%nat, 924480326004943); (19, 1%nat, 466584642140549); (229, 1%nat, 499565812500595); (1367, 1%nat, 1903075558653038)]);
  (9223372036854772801, 2, [(1921535841011411, 1%nat, 1533277808998862017)]);
  (41427569, 3, [(2, 4%nat, 20713784); (769, 1%nat, 21952799)]);
  (82855139, 2, [(41427569, 1%nat, 27618380)]);
  (84705128543593, 2, [(82855139, 1%nat, 32654016419454)]);
  (508230771261559, 2, [(84705128543593, 1%nat, 185544567285966)]);
  (9223372036854772733, 2, [(508230771261559, 1%nat, 8620349220324728032)]);
  (3271, 2, [(109, 1%nat, 320)]);
  (71963, 2, [(3271, 1%nat, 68011)]);
  (427604147, 2, [(71963, 1%nat, 118653197)]);
  (9223372036854772681, 7, [(2, 3%nat, 4611686018427386340); (427604147, 1%nat, 8261348932621422020)]);
  (36011, 2, [(277, 1%nat, 35498)]);
  (1800551, 2, [(36011, 1%nat, 1596023)]);
  (345705793, 2, [(1800551, 1%nat, 59673624)]);
  (9223372036854772547, 2, [(37, 1%nat, 5405616377032418314); (345705793, 1%nat, 2935795581764014872)]);
  (1129, 2, [(47, 1%nat, 1051)]);
  (4517, 2, [(1129, 1%nat, 2108)]);
  (36137, 2, [(4517, 1%nat, 992)]);
  (170928011, 2, [(36137, 1%nat, 65585801)]);
  (1367424089, 2, [(170928011, 1%nat, 407546003)]);
  (9223372036854772469, 2, [(2, 2%nat, 4611686018427386234); (1367424089, 1%nat, 777004120984000997)]);
  (1103, 5, [(2, 1%nat, 551); (19, 1%nat, 1016)]);
  (3145098613, 2, [(127, 1%nat, 2104131407); (1103, 1%nat, 330093428)]);
  (9223372036854772429, 2, [(3145098613, 1%nat, 7525469104016684956)]);
  (7657297, 5, [(2, 4%nat, 3828648); (3, 1%nat, 6481878); (67, 1%nat, 930980)]);
  (2810427088723, 2, [(7657297, 1%nat, 373373615)]);
  (112417083548921, 2, [(2810427088723, 1%nat, 98334860204868)]);
  (9223372036854772367, 2, [(112417083548921, 1%nat, 7506208558733528701)]);
  (4789, 2, [(2, 2%nat, 2394); (19, 1%nat, 2654)]);
  (350323031557, 2, [(199, 1%nat, 213089132797); (4789, 1%nat, 74266172984)]);
  (531790361903527, 2, [(350323031557, 1%nat, 72720591608821)]);
  (9223372036854772289, 2, [(531790361903527, 1%nat, 1166601847905154364)]);
  (445031, 2, [(5, 1%nat, 441269); (191, 1%nat, 285421)]);
  (890063, 2, [(445031, 1%nat, 296688)]);
  (9223372036854772241, 6, [(2, 4%nat, 4611686018427386120); (5, 1%nat, 8799057356459816785); (43, 1%nat, 3337312274367842032); (890063, 1%nat, 3582396976679524286)]);
  (546137, 2, [(3593, 1%nat, 121308)]);
  (9223372036854772169, 3, [(2, 3%nat, 4611686018427386084); (859, 1%nat, 6909544291840789254); (546137, 1%nat, 966952986890314674)]);
  (1543, 2, [(257, 1%nat, 49)]);
  (6173, 2, [(1543, 1%nat, 5350)]);
  (25979866026857, 3, [(2, 3%nat, 12989933013428); (7, 1%nat, 8848885275101); (23, 1%nat, 7323510891638); (6173, 1%nat, 19520097594907)]);
  (9223372036854772141, 2, [(25979866026857, 1%nat, 3156472111715045040)]);
  (1447, 2, [(241, 1%nat, 735)]);
  (865307, 2, [(1447, 1%nat, 556330)]);
  (474188237, 2, [(865307, 1%nat, 312412538)]);
  (9223372036854772061, 3, [(11, 1%nat, 2543934933178477491); (474188237, 1%nat, 4338037393411741172)]);
  (65827, 2, [(3, 3%nat, 21126); (23, 1%nat, 59113)]);
  (9223372036854772051, 2, [(2, 1%nat, 4611686018427386025); (3, 1%nat, 8113653350181363387); (5, 2%nat, 761383813381669352); (499, 1%nat, 7234629957601392711); (65827, 1%nat, 7814908622680260945)]);
  (605010191, 3, [(5, 1%nat, 153592663); (59, 1%nat, 578277840); (151, 1%nat, 75482841)]);
  (46582687054822081, 2, [(605010191, 1%nat, 34684405487862946)]);
  (9223372036854772039, 2, [(46582687054822081, 1%nat, 8779726466501016539)]);
  (5843, 2, [(127, 1%nat, 3562)]);
  (35059, 2, [(5843, 1%nat, 1113)]);
  (691670386487, 2, [(151, 1%nat, 363322969015); (35059, 1%nat, 234636392433)]);
  (9223372036854771989, 2, [(691670386487, 1%nat, 5378758079548081769)]);
  (293723, 2, [(11, 1%nat, 166284); (13, 2%nat, 117736)]);
  (1015106689, 2, [(293723, 1%nat, 301706042)]);
  (9223372036854771977, 3, [(2, 3%nat, 4611686018427385988); (1015106689, 1%nat, 1263044142629306083)]);
  (29881, 7, [(2, 3%nat, 14940); (83, 1%nat, 28185)]);
  (53785801, 2, [(29881, 1%nat, 40303588)]);
  (322714807, 2, [(53785801, 1%nat, 302224978)]);
  (2706931801117, 2, [(322714807, 1%nat, 2255431208301)]);
  (9223372036854771973, 2, [(2706931801117, 1%nat, 2054880094647135672)]);
  (2617, 2, [(109, 1%nat, 1611)]);
  (410672039347, 2, [(353, 1%nat, 377419994639); (2617, 1%nat, 38975009471)]);
  (9223372036854771953, 2, [(410672039347, 1%nat, 510252408134920381)]);
  (1222514563, 2, [(3, 1%nat, 1100496776); (67, 1%nat, 292286360); (257, 1%nat, 862932747)]);
  (2305843009213692967, 3, [(2, 1%nat, 1152921504606846483); (1222514563, 1%nat, 1334285335305687100)]);
  (9223372036854771869, 2, [(2305843009213692967, 1%nat, 614891469123651458)]);
  (9223372036854771841, 14, [(2, 7%nat, 4611686018427385920); (3, 3%nat, 7306785871105315792); (11, 1%nat, 2613059485258403519); (139, 1%nat, 6113664492975763395); (577, 1%nat, 3736630623025272996)]);
  (42227, 2, [(491, 1%nat, 41608)]);
  (81384519371, 3, [(7, 1%nat, 47855950136); (42227, 1%nat, 77847685587)]);
  (9223372036854771833, 2, [(81384519371, 1%nat, 6549888959635932448)]);
  (8009, 3, [(2, 3%nat, 4004); (13, 1%nat, 5524)]);
  (544613, 2, [(8009, 1%nat, 95756)]);
  (1089227, 2, [(544613, 1%nat, 363076)]);
  (65353621, 2, [(1089227, 1%nat, 53514622)]);
  (84698292817, 2, [(65353621, 1%nat, 63371180657)]);
  (9223372036854771797, 2, [(84698292817, 1%nat, 5373820850868011644)]);
  (1087, 2, [(181, 1%nat, 1018)]);
  (17393, 2, [(1087, 1%nat, 2822)]);
  (182139497, 2, [(17393, 1%nat, 25611384)]);
  (7390522465428503, 2, [(182139497, 1%nat, 5246178183993855)]);
  (2305843009213692937, 2, [(7390522465428503, 1%nat, 493415083060440498)]);
  (9223372036854771749, 2, [(2305843009213692937, 1%nat, 614891469123651450)]);
  (5869, 2, [(163, 1%nat, 2197)]);
  (1760701, 2, [(5869, 1%nat, 253964)]);
  (9223372036854771737, 3, [(2, 3%nat, 4611686018427385868); (647, 1%nat, 533845414902949553); (1760701, 1%nat, 1615988610166605542)]);
  (285611, 2, [(13, 4%nat, 50897)]);
  (571223, 2, [(285611, 1%nat, 190408)]);
  (9223372036854771727, 3, [(3, 1%nat, 2144494326157709258); (7, 1%nat, 5553537821187389675); (283, 1%nat, 6104138288438612567); (571223, 1%nat, 2527516942576608836)]);
  (104543, 5, [(2, 1%nat, 52271); (167, 1%nat, 70959)]);
  (1291530494581, 2, [(109, 1%nat, 735782815294); (104543, 1%nat, 411532118464)]);
  (54244280772403, 2, [(1291530494581, 1%nat, 35694906782782)]);
  (9223372036854771703, 2, [(54244280772403, 1%nat, 7880589771555968126)]);
  (89994653392151, 7, [(2, 1%nat, 44997326696075); (5, 2%nat, 41671433522578); (13, 1%nat, 10780319982548); (19, 1%nat, 12092827362980); (23, 1%nat, 47152710779520); (41, 1%nat, 24114453966857)]);
  (9223372036854771689, 2, [(89994653392151, 1%nat, 1858089954208598480)]);
  (1753, 2, [(73, 1%nat, 1296)]);
  (7013, 2, [(1753, 1%nat, 6078)]);
  (2359801, 13, [(2, 3%nat, 1179900); (3, 3%nat, 345279); (5, 2%nat, 1490664)]);
  (9223372036854771673, 2, [(7013, 1%nat, 1615934638621706515); (2359801, 1%nat, 8271233597460369895)]);
  (3967, 2, [(661, 1%nat, 2015)]);
  (63473, 2, [(3967, 1%nat, 33645)]);
  (82070208163, 2, [(3, 2%nat, 34504227522); (63473, 1%nat, 49030974023)]);
  (9223372036854771613, 2, [(82070208163, 1%nat, 3274094209351323968)]);
  (2287, 2, [(127, 1%nat, 1568)]);
  (13723, 2, [(2287, 1%nat, 5010)]);
  (47088827741, 2, [(37, 1%nat, 13321949487); (13723, 1%nat, 27917445626)]);
  (9223372036854771571, 2, [(47088827741, 1%nat, 650424977562726105)]);
  (1423, 2, [(79, 1%nat, 787)]);
  (10167892817, 2, [(79, 1%nat, 5899324086); (1423, 1%nat, 271956475)]);
  (105136011727781, 2, [(10167892817, 1%nat, 11919768625449)]);
  (9223372036854771569, 2, [(105136011727781, 1%nat, 5657756976702110100)]);
  (24683, 2, [(7, 1%nat, 19468); (41, 1%nat, 14969)]);
  (9223372036854771563, 2, [(13, 1%nat, 5643132996826789285); (139, 1%nat, 4671724653578426067); (157, 1%nat, 9208245298024151601); (24683, 1%nat, 5711985766239798999)]);
  (23311, 3, [(3, 2%nat, 3152); (37, 1%nat, 14776)]);
  (925866299, 2, [(2, 1%nat, 462933149); (23311, 1%nat, 611807712)]);
  (2263959753768967, 2, [(925866299, 1%nat, 583751733668780)]);
  (9223372036854771559, 2, [(2263959753768967, 1%nat, 7325939694985582090)]);
  (144163, 2, [(8009, 1%nat, 103171)]);
  (122538551, 2, [(144163, 1%nat, 70220510)]);
  (458294180741, 2, [(122538551, 1%nat, 142363931283)]);
  (3666353445929, 2, [(458294180741, 1%nat, 2171056354256)]);
  (87992482702297, 2, [(3666353445929, 1%nat, 81039513551370)]);
  (9223372036854771541, 2, [(87992482702297, 1%nat, 1034350311611515944)]);
  (78139, 2, [(1447, 1%nat, 55352)]);
  (1875337, 2, [(78139, 1%nat, 619997)]);
  (3295803509303, 2, [(1875337, 1%nat, 1325963024742)]);
  (65916070186061, 2, [(3295803509303, 1%nat, 52533204775403)]);
  (9223372036854771487, 2, [(65916070186061, 1%nat, 3458641062852431209)]);
  (371342846737, 5, [(2, 4%nat, 185671423368); (137, 1%nat, 51017572078); (673, 1%nat, 39460001891)]);
  (9223372036854771457, 2, [(371342846737, 1%nat, 6630388285647251226)]);
  (31249, 17, [(2, 4%nat, 15624); (31, 1%nat, 21899)]);
  (7654755041, 3, [(2, 5%nat, 3827377520); (31249, 1%nat, 2179444748)]);
  (343514787219917, 2, [(7654755041, 1%nat, 292733401171168)]);
  (9223372036854771451, 2, [(343514787219917, 1%nat, 1373748944031345928)]);
  (151057, 2, [(1049, 1%nat, 73572)]);
  (2719027, 2, [(151057, 1%nat, 2513645)]);
  (67181719117, 2, [(2719027, 1%nat, 8926335982)]);
  (4611686018427385619, 2, [(67181719117, 1%nat, 3700407205734313497)]);
  (9223372036854771239, 2, [(4611686018427385619, 1%nat, 3074457345618257080)]);
  (10957, 2, [(2, 2%nat, 5478); (83, 1%nat, 10724)]);
  (271275648142787389, 3, [(3, 3%nat, 134397956382690473); (19, 1%nat, 229495429468928495); (239, 1%nat, 82004051350994205); (10957, 1%nat, 108358386530456559)]);
  (9223372036854771227, 2, [(271275648142787389, 1%nat, 8894682720863256434)]);
  (42705667, 3, [(3, 2%nat, 1998290); (17, 1%nat, 14474874); (67, 1%nat, 23551168)]);
  (9223372036854771149, 2, [(197, 1%nat, 8381246810866628724); (42705667, 1%nat, 2721873579649445506)]);
  (140593, 5, [(2, 4%nat, 70296); (29, 1%nat, 78010)]);
  (843559, 2, [(140593, 1%nat, 307966)]);
  (151840621, 2, [(843559, 1%nat, 3394845)]);
  (5824909902803, 2, [(151840621, 1%nat, 94153719073)]);
  (9223372036854771109, 2, [(5824909902803, 1%nat, 8017896648548246231)]);
  (13099, 2, [(2, 1%nat, 6549); (59, 1%nat, 8102)]);
  (398369, 3, [(2, 5%nat, 199184); (59, 1%nat, 383169)]);
  (9223372036854771071, 2, [(13099, 1%nat, 3867403795205600118); (398369, 1%nat, 3400340307635294388)]);
  (1069009973, 2, [(89, 1%nat, 124108080); (827, 1%nat, 450907134)]);
  (1031466342748241, 2, [(1069009973, 1%nat, 407364911374419)]);
  (9223372036854771023, 2, [(1031466342748241, 1%nat, 1358507441207130650)]);
  (1435219, 2, [(2, 1%nat, 717609); (953, 1%nat, 1058305)]);
  (232505479, 2, [(1435219, 1%nat, 203036366)]);
  (88686269585142029, 2, [(2, 2%nat, 44343134792571014); (232505479, 1%nat, 50226571929748057)]);
  (9223372036854771017, 2, [(88686269585142029, 1%nat, 2081086035045813704)]);
  (1531, 2, [(3, 2%nat, 215); (5, 1%nat, 745)]);
  (872671, 2, [(1531, 1%nat, 120599)]);
  (8334008051, 2, [(872671, 1%nat, 8038133503)]);
  (9223372036854770939, 2, [(8334008051, 1%nat, 7483614719886698639)]);
  (68699, 2, [(701, 1%nat, 25438)]);
  (13190209, 2, [(68699, 1%nat, 2977264)]);
  (23109246169, 2, [(13190209, 1%nat, 7950639638)]);
  (92298329198987, 2, [(23109246169, 1%nat, 24592140873723)]);
  (9223372036854770911, 2, [(92298329198987, 1%nat, 4573228615123366414)]);
  (809491, 3, [(5, 1%nat, 306252); (223, 1%nat, 42990)]);
  (121360158379668037, 2, [(661, 1%nat, 68807654415376112); (809491, 1%nat, 86716909530778880)]);
  (9223372036854770813, 2, [(121360158379668037, 1%nat, 3393887516724610831)]);
  (5591, 11, [(2, 1%nat, 2795); (43, 1%nat, 1124)]);
  (33547, 2, [(5591, 1%nat, 1065)]);
  (14223929, 2, [(33547, 1%nat, 12296156)]);
  (9223372036854770749, 2, [(229, 1%nat, 8821742343201558524); (14223929, 1%nat, 392288977192698708)]);
  (28813, 2, [(7, 4%nat, 11798)]);
  (748199, 7, [(2, 1%nat, 374099); (479, 1%nat, 456990)])].
Definition certs_2 : list entry := [
  (1496399, 2, [(748199, 1%nat, 498800)]);
  (9223372036854770723, 2, [(28813, 1%nat, 4117482748811147120); (1496399, 1%nat, 6855525658800737006)]);
  (11197, 2, [(311, 1%nat, 858)]);
  (35418655339099, 2, [(2, 1%nat, 17709327669549); (379, 1%nat, 23144259078931); (11197, 1%nat, 26174546234631)]);
  (9223372036854770591, 2, [(35418655339099, 1%nat, 3165135749078112841)]);
  (7281716812291, 2, [(3, 3%nat, 5735551026283); (229, 1%nat, 2736538888505); (967, 1%nat, 5988091677335)]);
  (9223372036854770569, 2, [(7281716812291, 1%nat, 3501534414399370556)]);
  (446994409129, 2, [(31, 1%nat, 374752065654); (53, 1%nat, 314123529489); (769, 1%nat, 444349689219)]);
  (1787977636517, 2, [(446994409129, 1%nat, 834389563708)]);
  (9223372036854770351, 2, [(1787977636517, 1%nat, 4169202567471789466)]);
  (11000109766309, 2, [(59, 1%nat, 4636672787669); (277, 1%nat, 9656336046255); (743, 1%nat, 5321973618511)]);
  (9223372036854770321, 2, [(11000109766309, 1%nat, 8695856107229586278)]);
  (9223372036854770309, 2, [(17, 2%nat, 8911399915338391432); (227, 1%nat, 1339548139885867179); (487, 1%nat, 5237170877471370729); (547, 1%nat, 292577475815033016)]);
  (6101, 2, [(2, 2%nat, 3050); (5, 2%nat, 3503)]);
  (12203, 2, [(6101, 1%nat, 4068)]);
  (86641301, 2, [(12203, 1%nat, 52983925)]);
  (6038032266691, 2, [(86641301, 1%nat, 4548837752501)]);
  (9223372036854770287, 2, [(6038032266691, 1%nat, 7915866128395220895)]);
  (27901, 2, [(3, 2%nat, 16289); (5, 2%nat, 7155)]);
  (158198671, 2, [(27901, 1%nat, 136467361)]);
  (59799097639, 2, [(158198671, 1%nat, 59179663072)]);
  (9223372036854770203, 2, [(59799097639, 1%nat, 3296107465247477697)]);
  (66192619, 2, [(2, 1%nat, 33096309); (19, 1%nat, 44511670); (311, 1%nat, 48778611)]);
  (264770477, 2, [(66192619, 1%nat, 123559556)]);
  (42145105446953, 2, [(264770477, 1%nat, 8582898726312)]);
  (1152921504606846269, 2, [(42145105446953, 1%nat, 234772194057999041)]);
  (9223372036854770153, 2, [(1152921504606846269, 1%nat, 1555313716018647516)]);
  (104711, 29, [(2, 1%nat, 52355); (283, 1%nat, 4116)]);
  (628267, 2, [(104711, 1%nat, 19945)]);
  (22515832747, 2, [(628267, 1%nat, 19993396536)]);
  (30340039594917007, 2, [(22515832747, 1%nat, 29300884691177575)]);
  (9223372036854770129, 2, [(30340039594917007, 1%nat, 9051832051899385613)]);
  (17053, 2, [(2, 2%nat, 8526); (7, 2%nat, 2777)]);
  (54011, 2, [(491, 1%nat, 30502)]);
  (4611686018427385013, 2, [(2, 2%nat, 2305843009213692506); (17053, 1%nat, 2138982075680956805); (54011, 1%nat, 393263398158925129)]);
  (9223372036854770027, 2, [(4611686018427385013, 1%nat, 3074457345618256676)]);
  (6649063, 2, [(29, 1%nat, 1723386); (103, 1%nat, 4631465)]);
  (944166947, 2, [(6649063, 1%nat, 936071440)]);
  (79310023549, 2, [(944166947, 1%nat, 53560612556)]);
  (9223372036854769939, 2, [(79310023549, 1%nat, 1946572635044342652)]);
  (656671, 2, [(53, 1%nat, 509660); (59, 1%nat, 48867)]);
  (9223372036854769921, 22, [(2, 8%nat, 4611686018427384960); (3, 1%nat, 5824895018970240336); (7, 1%nat, 3499387717347955403); (656671, 1%nat, 1542841240224389929)]);
  (46567, 3, [(2, 1%nat, 23283); (199, 1%nat, 41112)]);
  (372420739596817, 10, [(2, 4%nat, 186210369798408); (3, 3%nat, 363915888235455); (46567, 1%nat, 102389645099359)]);
  (9223372036854769823, 2, [(372420739596817, 1%nat, 5369695680468405507)]);
  (58211934527, 5, [(2, 1%nat, 29105967263); (349, 1%nat, 57597092704); (397, 1%nat, 29980170135)]);
  (103500819589007, 2, [(58211934527, 1%nat, 52288986065264)]);
  (9223372036854769799, 2, [(103500819589007, 1%nat, 2436661468473104289)]);
  (5653, 2, [(157, 1%nat, 4167)]);
  (4611686018427384881, 3, [(2, 4%nat, 2305843009213692440); (151, 1%nat, 4284531911830385853); (211, 1%nat, 1020820365092222759); (5653, 1%nat, 2372262984040180283)]);
  (9223372036854769763, 2, [(4611686018427384881, 1%nat, 3074457345618256588)]);
  (12215304091, 5, [(3, 3%nat, 10436025287); (97, 1%nat, 8615747810); (109, 1%nat, 10693101262)]);
  (9223372036854769721, 2, [(12215304091, 1%nat, 9014971383917909836)]);
  (6913603297, 5, [(2, 5%nat, 3456801648); (3, 2%nat, 231704928); (43, 2%nat, 492028892)]);
  (318025751663, 2, [(6913603297, 1%nat, 63425638995)]);
  (9223372036854769459, 2, [(318025751663, 1%nat, 2684221873845587601)]);
  (21023, 2, [(457, 1%nat, 7953)]);
  (33426571, 2, [(21023, 1%nat, 19437776)]);
  (524061780139, 2, [(33426571, 1%nat, 283511019203)]);
  (9223372036854769421, 2, [(524061780139, 1%nat, 8643448653416966468)]);
  (3907, 2, [(3, 2%nat, 2625); (7, 1%nat, 90)]);
  (15629, 2, [(3907, 1%nat, 1042)]);
  (31259, 2, [(15629, 1%nat, 10420)]);
  (35238141225223, 2, [(197, 1%nat, 31550004861765); (31259, 1%nat, 32421109193101)]);
  (20226693063278003, 2, [(35238141225223, 1%nat, 4052232858151536)]);
  (9223372036854769369, 2, [(20226693063278003, 1%nat, 5257638705013788305)]);
  (4759, 3, [(2, 1%nat, 2379); (61, 1%nat, 4065)]);
  (41863525947961, 29, [(2, 3%nat, 20931762973980); (3, 1%nat, 6101251956465); (5, 1%nat, 35278183588687); (17, 1%nat, 32732876638718); (4759, 1%nat, 19445580016906)]);
  (5023623113755321, 2, [(41863525947961, 1%nat, 4205272047967364)]);
  (9223372036854769357, 2, [(5023623113755321, 1%nat, 3069876826482733632)]);
  (23293, 2, [(647, 1%nat, 2488)]);
  (9223372036854769331, 2, [(5, 1%nat, 6996937003044220538); (19, 2%nat, 535347289338847913); (127, 1%nat, 2754901093657197394); (23293, 1%nat, 131380392510638453)]);
  (3691, 2, [(2, 1%nat, 1845); (41, 1%nat, 3027)]);
  (22147, 2, [(3691, 1%nat, 17577)]);
  (445774817, 2, [(22147, 1%nat, 419257648)]);
  (35341027491761, 2, [(445774817, 1%nat, 24728540532597)]);
  (9223372036854769303, 2, [(35341027491761, 1%nat, 6034598452643208264)]);
  (13499, 2, [(397, 1%nat, 8128)]);
  (11042183, 2, [(13499, 1%nat, 4823245)]);
  (348778392239, 2, [(11042183, 1%nat, 221771840135)]);
  (9223372036854769289, 2, [(348778392239, 1%nat, 7130926648255751664)]);
  (11425916081, 2, [(311, 1%nat, 3898372097); (487, 1%nat, 5646314692)]);
  (9223372036854769249, 2, [(11425916081, 1%nat, 6418304604307846962)]);
  (270937, 10, [(2, 3%nat, 135468); (71, 1%nat, 186082)]);
  (9223372036854769243, 2, [(2, 1%nat, 4611686018427384621); (29, 1%nat, 3353103590150428480); (349, 1%nat, 2383149645761975270); (270937, 1%nat, 7141314415065089270)]);
  (200779, 2, [(2, 1%nat, 100389); (307, 1%nat, 69421)]);
  (9223372036854769231, 2, [(3, 2%nat, 6710817013896407965); (43, 1%nat, 3077659741208590511); (97, 1%nat, 769168369868041504); (200779, 1%nat, 6127138055844956953)]);
  (10837, 2, [(2, 2%nat, 5418); (43, 1%nat, 5164)]);
  (9815263, 3, [(2, 1%nat, 4907631); (3, 1%nat, 8189140); (757, 1%nat, 169878)]);
  (9223372036854769163, 2, [(10837, 1%nat, 6477530217769603744); (9815263, 1%nat, 2703669960700825537)]);
  (3001, 2, [(5, 3%nat, 1909)]);
  (3199067, 2, [(3001, 1%nat, 1376604)]);
  (52131995833, 2, [(3199067, 1%nat, 44627328978)]);
  (625583949997, 2, [(52131995833, 1%nat, 447151214076)]);
  (9223372036854769141, 2, [(625583949997, 1%nat, 1171378083258807275)]);
  (5003, 2, [(2, 1%nat, 2501); (41, 1%nat, 3107)]);
  (8865317, 2, [(5003, 1%nat, 8084273)]);
  (14255429737, 2, [(8865317, 1%nat, 6003269302)]);
  (9223372036854769103, 2, [(14255429737, 1%nat, 4066498016014871413)]);
  (123692404711, 2, [(7, 2%nat, 2890945824); (97, 1%nat, 480941424); (479, 1%nat, 38080771373)]);
  (695893468904087, 2, [(123692404711, 1%nat, 393761568530365)]);
  (9223372036854769099, 2, [(695893468904087, 1%nat, 1579194137186861093)]);
  (8737, 5, [(2, 5%nat, 4368); (3, 1%nat, 5068)]);
  (34949, 2, [(8737, 1%nat, 2330)]);
  (1158559351, 2, [(34949, 1%nat, 438179467)]);
  (192538661423989, 2, [(1158559351, 1%nat, 13448674901596)]);
  (1537228672809128177, 2, [(192538661423989, 1%nat, 1509031800520275723)]);
  (9223372036854769063, 2, [(1537228672809128177, 1%nat, 6880928344955145174)]);
  (1117, 2, [(2, 2%nat, 558); (3, 2%nat, 412)]);
  (31277, 2, [(1117, 1%nat, 22426)]);
  (562987, 2, [(31277, 1%nat, 513716)]);
  (3377923, 2, [(562987, 1%nat, 1233210)]);
  (2970241473131, 2, [(3377923, 1%nat, 2305661212247)]);
  (9223372036854769061, 2, [(2970241473131, 1%nat, 4925914802578761522)]);
  (95551260119911, 2, [(3, 2%nat, 49857957093028); (5, 1%nat, 65925032459304); (41, 1%nat, 56164010031782); (43, 1%nat, 7573272285668); (137, 1%nat, 53395720224475)]);
  (9223372036854769009, 2, [(95551260119911, 1%nat, 2196236567206618914)]);
  (22922971, 2, [(6421, 1%nat, 21345728)]);
  (10374203139529, 2, [(22922971, 1%nat, 1264116299272)]);
  (9223372036854768973, 2, [(10374203139529, 1%nat, 4121776937711263372)]);
  (45110029, 2, [(2, 2%nat, 22555014); (3, 1%nat, 19108152); (19, 1%nat, 2327883); (67, 1%nat, 29900896)]);
  (9223372036854768967, 3, [(89, 1%nat, 4380483700409583186); (45110029, 1%nat, 7668578265958537421)]);
  (27259, 2, [(3, 1%nat, 415); (59, 1%nat, 16305)]);
  (109037, 2, [(27259, 1%nat, 50884)]);
  (654223, 2, [(109037, 1%nat, 20769)]);
  (84528228493, 2, [(654223, 1%nat, 67694613903)]);
  (9223372036854768841, 2, [(84528228493, 1%nat, 272656291079234420)]);
  (138079519, 3, [(2, 1%nat, 69039759); (3, 1%nat, 21652922); (31, 1%nat, 119808781); (79, 1%nat, 78360398)]);
  (552318077, 2, [(138079519, 1%nat, 257748436)]);
  (9223372036854768823, 2, [(127, 1%nat, 1880452161379634232); (552318077, 1%nat, 541992295334811694)]);
  (17497, 2, [(3, 7%nat, 10091)]);
  (67763746367, 2, [(23, 1%nat, 10517393427); (17497, 1%nat, 44674564300)]);
  (9223372036854768773, 2, [(67763746367, 1%nat, 845700885477190558)]);
  (48179, 3, [(13, 1%nat, 32497); (17, 1%nat, 43514)]);
  (6166913, 2, [(48179, 1%nat, 3052100)]);
  (142122676999, 2, [(6166913, 1%nat, 7990627344)]);
  (9223372036854768743, 2, [(142122676999, 1%nat, 2261007736630360732)]);
  (4447, 2, [(3, 2%nat, 4408); (13, 1%nat, 318)]);
  (17789, 2, [(4447, 1%nat, 1186)]);
  (1537228672809128113, 5, [(2, 4%nat, 768614336404564056); (11, 1%nat, 668375538278107076); (919, 1%nat, 1402017715695891411); (17789, 1%nat, 1463303317795351278)]);
  (9223372036854768679, 2, [(1537228672809128113, 1%nat, 4684887383799247583)]);
  (3347, 2, [(239, 1%nat, 561)]);
  (100411, 2, [(3347, 1%nat, 26297)]);
  (96997027, 2, [(100411, 1%nat, 60107977)]);
  (9223372036854768539, 2, [(313, 1%nat, 2765902615394636109); (96997027, 1%nat, 2847726807844416548)]);
  (49999, 2, [(641, 1%nat, 31073)]);
  (107697847, 2, [(49999, 1%nat, 54176460)]);
  (21808167830419, 2, [(107697847, 1%nat, 1283863786004)]);
  (9223372036854768509, 2, [(21808167830419, 1%nat, 865417590446456359)]);
  (3881, 2, [(97, 1%nat, 3732)]);
  (10020743, 2, [(3881, 1%nat, 5690297)]);
  (8004509383943, 2, [(10020743, 1%nat, 2214020378518)]);
  (9223372036854768497, 2, [(8004509383943, 1%nat, 6572437183936044286)]);
  (1886749013, 2, [(2, 2%nat, 943374506); (17, 1%nat, 1549056970); (43, 1%nat, 755677297); (47, 1%nat, 920451603)]);
  (4611686018427384233, 3, [(2, 3%nat, 2305843009213692116); (1886749013, 1%nat, 2547226025846019174)]);
  (9223372036854768467, 2, [(4611686018427384233, 1%nat, 3074457345618256156)]);
  (1861, 2, [(2, 2%nat, 930); (31, 1%nat, 449)]);
  (241931, 2, [(1861, 1%nat, 31491)]);
  (483863, 2, [(241931, 1%nat, 161288)]);
  (41434735116149, 2, [(2, 2%nat, 20717367558074); (11, 1%nat, 29959421109186); (483863, 1%nat, 36061317267181)]);
  (8784163844623589, 2, [(41434735116149, 1%nat, 8227555191559551)]);
  (9223372036854768451, 2, [(8784163844623589, 1%nat, 9200749749281511494)]);
  (78629178769, 13, [(2, 4%nat, 39314589384); (3, 1%nat, 69375475970); (7, 1%nat, 8851461804); (29, 1%nat, 49699041344); (41, 1%nat, 37135322446)]);
  (9223372036854768427, 2, [(78629178769, 1%nat, 2074770309878682462)]);
  (519314381, 2, [(2, 2%nat, 259657190); (5, 1%nat, 269588292); (13, 1%nat, 168830744); (199, 1%nat, 277546321)]);
  (922302340657, 2, [(519314381, 1%nat, 565445798803)]);
  (9223372036854768347, 2, [(922302340657, 1%nat, 5161710337766924368)]);
  (4903, 3, [(2, 1%nat, 2451); (43, 1%nat, 788)]);
  (2029843, 2, [(4903, 1%nat, 1978432)]);
  (3734911121, 2, [(2029843, 1%nat, 3235373834)]);
  (9223372036854768337, 2, [(3734911121, 1%nat, 1863812164748156321)]);
  (2039, 2, [(1019, 1%nat, 680)]);
  (4079, 2, [(2039, 1%nat, 1360)]);
  (9871181, 2, [(4079, 1%nat, 1163150)]);
  (34114801537, 2, [(9871181, 1%nat, 4084192815)]);
  (9223372036854768269, 2, [(34114801537, 1%nat, 8153881662377937873)]);
  (9059, 2, [(647, 1%nat, 3232)]);
  (9223372036854768157, 2, [(2, 2%nat, 4611686018427384078); (13, 2%nat, 5216975987397817665); (857, 1%nat, 5494925288199435672); (9059, 1%nat, 1214818452488042288)]);
  (7151, 3, [(5, 2%nat, 7117); (11, 1%nat, 3086)]);
  (14303, 2, [(7151, 1%nat, 4768)]);
  (286061, 2, [(14303, 1%nat, 158150)]);
  (9223372036854768101, 2, [(2, 2%nat, 4611686018427384050); (5, 2%nat, 3566982231370444429); (7, 1%nat, 886481012977570175); (23, 1%nat, 732089246627082437); (286061, 1%nat, 5930624369222595161)]);
  (1131131, 2, [(11, 1%nat, 886912); (113, 1%nat, 820246)]);
  (606286217, 2, [(1131131, 1%nat, 429738204)]);
  (320119122577, 2, [(606286217, 1%nat, 106567015425)]);
  (159023655807840829, 2, [(320119122577, 1%nat, 137763295198285751)]);
  (9223372036854768083, 2, [(159023655807840829, 1%nat, 5076271572084113878)]);
  (26821, 2, [(2, 2%nat, 13410); (149, 1%nat, 20303)]);
  (268211, 2, [(26821, 1%nat, 24645)]);
  (536423, 2, [(268211, 1%nat, 178808)]);
  (20380855463, 2, [(536423, 1%nat, 11970082804)]);
  (1345136460559, 2, [(20380855463, 1%nat, 889013285840)]);
  (9223372036854767971, 2, [(1345136460559, 1%nat, 3578156797507929683)]);
  (473089, 13, [(2, 11%nat, 236544)]);
  (1892357, 2, [(473089, 1%nat, 883100)]);
  (2329134352741103, 2, [(131, 1%nat, 188920898120505); (1892357, 1%nat, 2076060988906417)]);
  (9223372036854767881, 2, [(2329134352741103, 1%nat, 43833443098392633)]);
  (1847, 2, [(71, 1%nat, 686)]);
  (313991, 2, [(1847, 1%nat, 279489)]);
  (63142962119, 2, [(313991, 1%nat, 51715020444)]);
  (54934377043531, 2, [(63142962119, 1%nat, 30410766007724)]);
  (9223372036854767839, 2, [(54934377043531, 1%nat, 5791276373974295342)]);
  (9223372036854767819, 2, [(13, 2%nat, 5660618564634939557); (109, 1%nat, 7245824244626762387); (503, 1%nat, 7417093587899810847); (811, 1%nat, 7668491317162674652)]);
  (1171, 2, [(3, 2%nat, 640); (5, 1%nat, 594)]);
  (81971, 2, [(1171, 1%nat, 40224)]);
  (36886951, 2, [(81971, 1%nat, 1100920)]);
  (56805904541, 2, [(36886951, 1%nat, 38036688201)]);
  (9223372036854767713, 2, [(56805904541, 1%nat, 3850021560680854595)]);
  (6337, 10, [(2, 6%nat, 3168); (3, 2%nat, 2616)]);
  (13878031, 2, [(6337, 1%nat, 9916742)]);
  (39857705033, 2, [(13878031, 1%nat, 24218752076)]);
  (9223372036854767633, 2, [(39857705033, 1%nat, 2889772706094957420)]);
  (77569, 13, [(2, 8%nat, 38784); (3, 1%nat, 17268)]);
  (425903769710693, 2, [(7, 1%nat, 33715242418427); (41, 1%nat, 300778045243668); (77569, 1%nat, 295377247463116)]);
  (9223372036854767609, 2, [(425903769710693, 1%nat, 2747515598682882305)]);
  (1777, 5, [(2, 4%nat, 888); (3, 1%nat, 382)]);
  (497561, 2, [(1777, 1%nat, 309868)]);
  (45634051915013, 2, [(2, 2%nat, 22817025957506); (11, 1%nat, 34325657060702); (497561, 1%nat, 20837382826521)]);
  (9223372036854767509, 2, [(45634051915013, 1%nat, 5470448819032485214)]);
  (6949, 2, [(193, 1%nat, 4961)]);
  (83389, 2, [(6949, 1%nat, 224)])].
Definition certs_3 : list entry := [
  (4611686018427383741, 2, [(13, 2%nat, 622488070300762013); (157, 1%nat, 1742904634439042836); (83389, 1%nat, 1615538762749108255)]);
  (9223372036854767483, 2, [(4611686018427383741, 1%nat, 3074457345618255828)]);
  (176933, 2, [(7, 1%nat, 115184); (71, 1%nat, 56889)]);
  (353867, 2, [(176933, 1%nat, 117956)]);
  (9223372036854767383, 2, [(61, 1%nat, 6969913352854952872); (337, 1%nat, 4730548003453120192); (353867, 1%nat, 2160550453768946131)]);
  (667987, 2, [(3, 1%nat, 189731); (349, 1%nat, 378693)]);
  (287601248420791, 2, [(547, 1%nat, 280434671965338); (667987, 1%nat, 43458423704727)]);
  (9223372036854767371, 2, [(287601248420791, 1%nat, 2800971630362505205)]);
  (32191, 2, [(5, 1%nat, 25454); (37, 1%nat, 6951)]);
  (3090337, 2, [(32191, 1%nat, 684496)]);
  (1013630537, 2, [(3090337, 1%nat, 439408876)]);
  (20773360443366593, 2, [(1013630537, 1%nat, 11470793248882072)]);
  (9223372036854767293, 2, [(20773360443366593, 1%nat, 8737525644979752730)]);
  (4391, 2, [(439, 1%nat, 2335)]);
  (17626897, 5, [(3, 4%nat, 139520); (67, 1%nat, 5610638)]);
  (9223372036854767237, 2, [(4391, 1%nat, 5349773943162037092); (17626897, 1%nat, 4316933800058868639)]);
  (1181, 2, [(59, 1%nat, 247)]);
  (66137, 2, [(1181, 1%nat, 37695)]);
  (9223372036854767161, 7, [(2, 3%nat, 4611686018427383580); (3, 2%nat, 2604925135127008333); (797, 1%nat, 4612800349780186645); (66137, 1%nat, 2595297782131023832)]);
  (9397, 2, [(2, 2%nat, 4698); (3, 4%nat, 7139)]);
  (37589, 2, [(9397, 1%nat, 2506)]);
  (451069, 2, [(37589, 1%nat, 9473)]);
  (2134458509, 2, [(451069, 1%nat, 622251415)]);
  (4268917019, 2, [(2134458509, 1%nat, 1422972340)]);
  (9223372036854767131, 2, [(4268917019, 1%nat, 5355699391523017946)]);
  (21594137, 3, [(2, 3%nat, 10797068); (761, 1%nat, 10361600)]);
  (1065411531307, 2, [(21594137, 1%nat, 565802394651)]);
  (9223372036854767087, 2, [(1065411531307, 1%nat, 7990951460009835146)]);
  (2086459, 2, [(11, 1%nat, 608213); (313, 1%nat, 56685)]);
  (246202163, 2, [(2086459, 1%nat, 239433121)]);
  (197946539053, 2, [(246202163, 1%nat, 79417551740)]);
  (1187679234319, 2, [(197946539053, 1%nat, 94260256692)]);
  (9223372036854767083, 2, [(1187679234319, 1%nat, 9094161464615112882)]);
  (115151, 3, [(5, 2%nat, 58019); (7, 2%nat, 22887)]);
  (253819, 3, [(3, 2%nat, 178338); (59, 1%nat, 219905)]);
  (9223372036854767021, 2, [(115151, 1%nat, 6402185529029025786); (253819, 1%nat, 7382480063351408167)]);
  (95419, 3, [(3, 4%nat, 33364); (19, 1%nat, 18628)]);
  (156296323, 2, [(95419, 1%nat, 115949607)]);
  (55793723606603, 2, [(156296323, 1%nat, 47364057011041)]);
  (781112130492443, 2, [(55793723606603, 1%nat, 689617643620991)]);
  (384307168202281957, 2, [(781112130492443, 1%nat, 366179014001721160)]);
  (9223372036854766969, 2, [(384307168202281957, 1%nat, 7873535066082267083)]);
  (7840589, 2, [(7, 2%nat, 3082022); (109, 1%nat, 3886357)]);
  (423391807, 2, [(7840589, 1%nat, 187812819)]);
  (610738447679431, 2, [(423391807, 1%nat, 271439231072619)]);
  (9223372036854766963, 2, [(610738447679431, 1%nat, 8834907683395100637)]);
  (1327, 3, [(3, 1%nat, 326); (13, 1%nat, 869)]);
  (12882417803, 2, [(523, 1%nat, 4241483294); (1327, 1%nat, 1285675745)]);
  (9223372036854766943, 2, [(12882417803, 1%nat, 5992461327651720751)]);
  (44077398935527, 3, [(2, 1%nat, 22038699467763); (3, 2%nat, 16040092602233); (11, 1%nat, 30472013201828); (17, 2%nat, 28869046413493); (163, 1%nat, 38084265417285)]);
  (9223372036854766859, 2, [(44077398935527, 1%nat, 3134823906712245422)]);
  (3037, 2, [(2, 2%nat, 1518); (23, 1%nat, 550)]);
  (18223, 2, [(3037, 1%nat, 17066)]);
  (101016056303581, 2, [(2, 2%nat, 50508028151790); (149, 1%nat, 75319613400741); (18223, 1%nat, 81179983064259)]);
  (9223372036854766787, 2, [(101016056303581, 1%nat, 3813246964335034837)]);
  (224993, 3, [(2, 5%nat, 112496); (79, 1%nat, 73907)]);
  (449987, 2, [(224993, 1%nat, 149996)]);
  (5802132379, 2, [(449987, 1%nat, 4938984538)]);
  (162459706613, 2, [(5802132379, 1%nat, 33881536995)]);
  (9223372036854766771, 2, [(162459706613, 1%nat, 8767438319308174796)]);
  (1303963, 2, [(2, 1%nat, 651981); (859, 1%nat, 107597)]);
  (52082890147, 2, [(1303963, 1%nat, 34972548214)]);
  (9223372036854766751, 2, [(52082890147, 1%nat, 6729519277742113213)]);
  (212065943, 2, [(59, 1%nat, 184868250); (821, 1%nat, 189266506)]);
  (424131887, 2, [(212065943, 1%nat, 141377296)]);
  (5937846419, 2, [(424131887, 1%nat, 1213809904)]);
  (5997224883191, 2, [(5937846419, 1%nat, 5908916037086)]);
  (9223372036854766541, 2, [(5997224883191, 1%nat, 6711597442572733923)]);
  (1811, 2, [(181, 1%nat, 1680)]);
  (14489, 2, [(1811, 1%nat, 3466)]);
  (147092329, 2, [(14489, 1%nat, 45536730)]);
  (269767331387, 2, [(147092329, 1%nat, 31708695650)]);
  (94418565985451, 2, [(269767331387, 1%nat, 72394028063076)]);
  (9223372036854766387, 2, [(94418565985451, 1%nat, 3432862108291415382)]);
  (1597, 2, [(2, 2%nat, 798); (19, 1%nat, 799)]);
  (111791, 2, [(1597, 1%nat, 47997)]);
  (267180491, 2, [(111791, 1%nat, 214553609)]);
  (658812288346769027, 2, [(17, 1%nat, 554768732276958661); (267180491, 1%nat, 144193809556910921)]);
  (9223372036854766379, 2, [(658812288346769027, 1%nat, 2257004119865150364)]);
  (396192956909569, 11, [(2, 11%nat, 198096478454784); (241, 1%nat, 305766961938152); (257, 1%nat, 39935043621561)]);
  (9223372036854766321, 2, [(396192956909569, 1%nat, 415445474802486853)]);
  (1499, 2, [(107, 1%nat, 1400)]);
  (2999, 2, [(1499, 1%nat, 1000)]);
  (27281, 6, [(2, 4%nat, 13640); (11, 1%nat, 902)]);
  (54563, 2, [(27281, 1%nat, 18188)]);
  (9223372036854766261, 2, [(23, 1%nat, 9175235792037338378); (2999, 1%nat, 8205768228615735099); (54563, 1%nat, 5415284447982755782)]);
  (89513, 3, [(2, 3%nat, 44756); (67, 1%nat, 67514)]);
  (10199290247, 5, [(2, 1%nat, 5099645123); (89513, 1%nat, 844515659)]);
  (9223372036854766243, 2, [(10199290247, 1%nat, 5426376878358596212)]);
  (590279, 2, [(13, 1%nat, 453423); (73, 1%nat, 209168)]);
  (1579, 2, [(263, 1%nat, 1178)]);
  (963191, 2, [(1579, 1%nat, 650068)]);
  (9223372036854766199, 2, [(590279, 1%nat, 2292560874496961148); (963191, 1%nat, 2221869457691060316)]);
  (21313, 5, [(2, 6%nat, 10656); (3, 2%nat, 16040)]);
  (9846607, 2, [(21313, 1%nat, 4245257)]);
  (1078301932571, 2, [(9846607, 1%nat, 190100916016)]);
  (9223372036854766169, 2, [(1078301932571, 1%nat, 5314410937924440524)]);
  (390157, 3, [(13, 1%nat, 292097); (61, 1%nat, 336541)]);
  (9223372036854766129, 2, [(13, 2%nat, 1846801796307319567); (53, 1%nat, 957703944838606879); (390157, 1%nat, 4409469002410843578)]);
  (3617, 2, [(113, 1%nat, 2269)]);
  (4915933119173, 2, [(2, 2%nat, 2457966559586); (227, 1%nat, 1443553608695); (3617, 1%nat, 1039619111760)]);
  (9223372036854766061, 2, [(4915933119173, 1%nat, 9186444723870240887)]);
  (44812109, 2, [(11, 3%nat, 11982048); (19, 1%nat, 10867247)]);
  (9948288199, 2, [(44812109, 1%nat, 8511965985)]);
  (9223372036854766033, 2, [(9948288199, 1%nat, 6006059071687821781)]);
  (3208899540013, 2, [(61, 1%nat, 2830994204068); (211, 1%nat, 2923092812445); (239, 1%nat, 783784365723)]);
  (9223372036854766031, 2, [(3208899540013, 1%nat, 5260506421168188685)]);
  (49333721, 3, [(2, 3%nat, 24666860); (5, 1%nat, 34195960); (257, 1%nat, 3321912)]);
  (5373034221553, 2, [(49333721, 1%nat, 4903037326587)]);
  (9223372036854766013, 2, [(5373034221553, 1%nat, 5091865362787576041)]);
  (16381, 2, [(2, 2%nat, 8190); (3, 2%nat, 9789); (5, 1%nat, 6241)]);
  (1073741789, 2, [(2, 2%nat, 536870894); (16381, 1%nat, 113594666)]);
  (9223372036854766009, 11, [(2, 3%nat, 4611686018427383004); (1073741789, 1%nat, 6873968238424791061)]);
  (2003, 3, [(7, 1%nat, 1733); (11, 1%nat, 822)]);
  (4007, 2, [(2003, 1%nat, 1336)]);
  (272477, 2, [(4007, 1%nat, 172004)]);
  (53975725871107, 3, [(3, 1%nat, 20509668847151); (13, 1%nat, 2974307424738); (272477, 1%nat, 10379010916891)]);
  (5181669683626273, 2, [(53975725871107, 1%nat, 2449224729323163)]);
  (9223372036854765941, 2, [(5181669683626273, 1%nat, 2677104616890329788)]);
  (119617, 5, [(2, 6%nat, 59808); (7, 1%nat, 80263)]);
  (4611686018427382913, 3, [(2, 7%nat, 2305843009213691456); (593, 1%nat, 4452119599816515730); (119617, 1%nat, 3681200222338173588)]);
  (9223372036854765827, 2, [(4611686018427382913, 1%nat, 3074457345618255276)]);
  (171476993, 3, [(2, 11%nat, 85738496); (101, 1%nat, 117373310)]);
  (396454807817, 2, [(171476993, 1%nat, 393009995799)]);
  (9223372036854765809, 2, [(396454807817, 1%nat, 3877479227749509524)]);
  (3187, 2, [(59, 1%nat, 2351)]);
  (395189, 2, [(3187, 1%nat, 300137)]);
  (790379, 2, [(395189, 1%nat, 263460)]);
  (9223372036854765793, 5, [(2, 5%nat, 4611686018427382896); (3, 3%nat, 4992405051398865670); (71, 1%nat, 8320856156820035382); (790379, 1%nat, 2267614425630921971)]);
  (83156893, 2, [(271, 1%nat, 56363645); (281, 1%nat, 65867081)]);
  (11897256681511, 2, [(83156893, 1%nat, 3731836686155)]);
  (9223372036854765773, 2, [(11897256681511, 1%nat, 6924728533931296252)]);
  (174583, 3, [(3, 3%nat, 83206); (53, 1%nat, 114210)]);
  (65691392909, 2, [(2, 2%nat, 32845696454); (174583, 1%nat, 10637423343)]);
  (9223372036854765767, 2, [(65691392909, 1%nat, 1130302486722001044)]);
  (40387, 2, [(2, 1%nat, 20193); (127, 1%nat, 17522)]);
  (26788610106403, 2, [(467, 1%nat, 20447234862830); (40387, 1%nat, 5301887908999)]);
  (9223372036854765707, 2, [(26788610106403, 1%nat, 8123293287252870543)]);
  (39200017156933, 2, [(103, 1%nat, 7455175978216); (239, 1%nat, 27138765758170); (359, 1%nat, 11732202449798)]);
  (9223372036854765571, 2, [(39200017156933, 1%nat, 7079924566882547034)]);
  (6336781001, 3, [(2, 3%nat, 3168390500); (5, 3%nat, 5103078286); (11, 1%nat, 1311051727); (43, 1%nat, 6307915823)]);
  (9223372036854765557, 2, [(6336781001, 1%nat, 5138792530115752604)]);
  (28921, 2, [(241, 1%nat, 10220)]);
  (18509441, 2, [(28921, 1%nat, 7427863)]);
  (98106367528823, 2, [(18509441, 1%nat, 60630138356126)]);
  (9223372036854765523, 2, [(98106367528823, 1%nat, 2561488610221232001)]);
  (4951, 2, [(3, 2%nat, 896); (5, 2%nat, 660)]);
  (64843729167989, 2, [(4951, 1%nat, 5620606931752); (11311, 1%nat, 14011042256323)]);
  (907812208351847, 2, [(64843729167989, 1%nat, 857830726820176)]);
  (9223372036854765521, 2, [(907812208351847, 1%nat, 3024456181793798502)]);
  (29473, 2, [(307, 1%nat, 24017)]);
  (71619391, 2, [(29473, 1%nat, 53501373)]);
  (689649471874889, 2, [(71619391, 1%nat, 645737403256689)]);
  (9223372036854765487, 2, [(689649471874889, 1%nat, 2898921822502665857)]);
  (20533, 2, [(2, 2%nat, 10266); (59, 1%nat, 7719)]);
  (234076201, 2, [(20533, 1%nat, 38777253)]);
  (6340656132689, 2, [(234076201, 1%nat, 4047733607139)]);
  (240944933042183, 2, [(6340656132689, 1%nat, 74663408341023)]);
  (69874030582233071, 2, [(240944933042183, 1%nat, 50051670462318095)]);
  (9223372036854765373, 2, [(69874030582233071, 1%nat, 260490829389278192)]);
  (1142549, 2, [(1129, 1%nat, 167318)]);
  (9140393, 2, [(1142549, 1%nat, 1003651)]);
  (9223372036854765343, 2, [(761, 1%nat, 5455752721115311347); (9140393, 1%nat, 1968488686599888742)]);
  (2004470471, 11, [(2, 1%nat, 1002235235); (5, 1%nat, 1436569764); (23, 1%nat, 163416140); (271, 1%nat, 325271006)]);
  (8334588218419, 2, [(2004470471, 1%nat, 1886452153229)]);
  (9223372036854765323, 2, [(8334588218419, 1%nat, 8751743615348719155)]);
  (68239, 3, [(2, 1%nat, 34119); (223, 1%nat, 33122)]);
  (1794958657, 2, [(68239, 1%nat, 744613975)]);
  (9223372036854765319, 3, [(2, 1%nat, 4611686018427382659); (1794958657, 1%nat, 4297556022264680265)]);
  (1429, 6, [(2, 2%nat, 714); (17, 1%nat, 725)]);
  (160049, 2, [(1429, 1%nat, 45088)]);
  (55145203049, 3, [(2, 3%nat, 27572601524); (160049, 1%nat, 24707789099)]);
  (992613654883, 2, [(55145203049, 1%nat, 244375398385)]);
  (9223372036854765299, 2, [(992613654883, 1%nat, 1893344844387961381)]);
  (29835196661927, 2, [(23, 1%nat, 10659986723159); (613, 1%nat, 24613613199767); (881, 1%nat, 21706380581085)]);
  (1969122979687183, 2, [(29835196661927, 1%nat, 1208082994883241)]);
  (9223372036854765173, 2, [(1969122979687183, 1%nat, 1126198239566661109)]);
  (137447, 2, [(3617, 1%nat, 339)]);
  (6047669, 2, [(137447, 1%nat, 256667)]);
  (12095339, 2, [(6047669, 1%nat, 4031780)]);
  (9223372036854765143, 2, [(257, 1%nat, 7441610137418225380); (12095339, 1%nat, 1571089061403179877)]);
  (1216128409, 7, [(2, 3%nat, 608064204); (11, 2%nat, 881382920); (43, 1%nat, 148963347)]);
  (9223372036854765091, 2, [(3, 4%nat, 8376501148767947207); (1216128409, 1%nat, 402249838494756957)]);
  (1453, 2, [(11, 2%nat, 1263)]);
  (5813, 2, [(1453, 1%nat, 5038)]);
  (20663, 2, [(10331, 1%nat, 6888)]);
  (909173, 2, [(20663, 1%nat, 188927)]);
  (1818347, 2, [(909173, 1%nat, 606116)]);
  (9223372036854765019, 2, [(5813, 1%nat, 8972160334657794328); (1818347, 1%nat, 7862379612429288742)]);
  (169657, 2, [(7069, 1%nat, 143174)]);
  (9223372036854765001, 2, [(5, 4%nat, 4321737645463516195); (83, 1%nat, 8971455569479732144); (169657, 1%nat, 8679914490498326284)]);
  (128993, 3, [(2, 5%nat, 64496); (29, 1%nat, 37146)]);
  (257987, 2, [(128993, 1%nat, 85996)]);
  (19937235361, 2, [(257987, 1%nat, 3731776958)]);
  (1156359650939, 2, [(19937235361, 1%nat, 125138828338)]);
  (9223372036854764947, 2, [(1156359650939, 1%nat, 7991130523802485986)]);
  (10150367, 2, [(67, 1%nat, 1224348); (211, 1%nat, 9422562)]);
  (243608809, 2, [(10150367, 1%nat, 161551808)]);
  (9223372036854764923, 2, [(19, 1%nat, 6507682393942268521); (243608809, 1%nat, 3744880404556206078)]);
  (2549, 2, [(2, 2%nat, 1274); (7, 2%nat, 1171)]);
  (5099, 2, [(2549, 1%nat, 1700)]);
  (1417523, 2, [(5099, 1%nat, 200743)]);
  (448861492997, 2, [(1417523, 1%nat, 69121314566)]);
  (9223372036854764891, 2, [(448861492997, 1%nat, 9072796846207165375)]);
  (1231, 2, [(41, 1%nat, 981)]);
  (3229, 2, [(269, 1%nat, 742)]);
  (6541213041371, 2, [(1231, 1%nat, 5335666072985); (3229, 1%nat, 3516258041253)]);
  (4611686018427382421, 2, [(6541213041371, 1%nat, 1096217680165758271)]);
  (9223372036854764843, 2, [(4611686018427382421, 1%nat, 3074457345618254948)]);
  (35527, 2, [(191, 1%nat, 10785)]);
  (53858933, 2, [(35527, 1%nat, 643715)]);
  (107717867, 2, [(53858933, 1%nat, 35905956)]);
  (446522658639367, 2, [(107717867, 1%nat, 257488094873508)]);
  (9223372036854764753, 2, [(446522658639367, 1%nat, 1188249784718540220)]);
  (170827, 2, [(2, 1%nat, 85413); (401, 1%nat, 100724)]);
  (416817881, 2, [(170827, 1%nat, 161983705)]);
  (184777867554587, 2, [(416817881, 1%nat, 74937068513767)]);
  (9223372036854764693, 2, [(184777867554587, 1%nat, 2839748358529837378)]);
  (820481, 6, [(2, 8%nat, 410240); (5, 1%nat, 109724)]);
  (24614431, 2, [(820481, 1%nat, 16497974)])].
Definition certs_4 : list entry := [
  (13684528244591639, 3, [(7, 1%nat, 3665220265424957); (24614431, 1%nat, 372238094988980)]);
  (9223372036854764687, 2, [(13684528244591639, 1%nat, 8377697332645650010)]);
  (41809, 7, [(2, 4%nat, 20904); (13, 1%nat, 23528)]);
  (9223372036854764639, 7, [(2, 1%nat, 4611686018427382319); (73, 1%nat, 3240393483709091677); (593, 1%nat, 2715771584028066293); (41809, 1%nat, 459403535241809439)]);
  (7603, 2, [(181, 1%nat, 255)]);
  (2448167, 2, [(7603, 1%nat, 2387289)]);
  (3508428957029, 2, [(2448167, 1%nat, 124979967863)]);
  (9223372036854764623, 2, [(3508428957029, 1%nat, 8690918815824960662)]);
  (4783, 2, [(797, 1%nat, 2885)]);
  (57397, 2, [(4783, 1%nat, 35980)]);
  (229589, 2, [(57397, 1%nat, 15306)]);
  (1264576213, 2, [(229589, 1%nat, 960689761)]);
  (9223372036854764617, 5, [(2, 3%nat, 4611686018427382308); (1264576213, 1%nat, 6553385397127876114)]);
  (1063, 2, [(59, 1%nat, 384)]);
  (6379, 2, [(1063, 1%nat, 5974)]);
  (2372989, 2, [(6379, 1%nat, 183976)]);
  (617807686151, 2, [(2372989, 1%nat, 67672978008)]);
  (9223372036854764597, 2, [(617807686151, 1%nat, 7022093439644845607)]);
  (2621, 2, [(131, 1%nat, 659)]);
  (1931, 2, [(193, 1%nat, 806)]);
  (3863, 2, [(1931, 1%nat, 1288)]);
  (2178733, 2, [(3863, 1%nat, 825328)]);
  (9223372036854764557, 2, [(2621, 1%nat, 2772231233106297959); (2178733, 1%nat, 3010736702439513629)]);
  (14983, 2, [(227, 1%nat, 985)]);
  (17590043, 2, [(14983, 1%nat, 15450506)]);
  (5312192987, 2, [(17590043, 1%nat, 1853020600)]);
  (74370701819, 2, [(5312192987, 1%nat, 24545100698)]);
  (9223372036854764549, 2, [(74370701819, 1%nat, 5198778873451026638)]);
  (39953, 2, [(227, 1%nat, 14729)]);
  (3389, 2, [(11, 2%nat, 1451)]);
  (6779, 2, [(3389, 1%nat, 2260)]);
  (135581, 2, [(6779, 1%nat, 36405)]);
  (9223372036854764513, 2, [(39953, 1%nat, 7344839420698552419); (135581, 1%nat, 8971946111060898615)]);
  (299951, 2, [(857, 1%nat, 202099)]);
  (4283900183, 2, [(299951, 1%nat, 1412169847)]);
  (9223372036854764501, 2, [(4283900183, 1%nat, 3559863430738373740)]);
  (3451644961, 11, [(2, 5%nat, 1725822480); (3, 1%nat, 1872108201); (23, 1%nat, 2648141621); (29, 1%nat, 1823477853)]);
  (41419739533, 2, [(3451644961, 1%nat, 1749844918)]);
  (9223372036854764471, 2, [(41419739533, 1%nat, 6695124800717391217)]);
  (2797918538399, 2, [(43, 1%nat, 1907134203437); (137, 1%nat, 2473455429831); (409, 1%nat, 2303063464569)]);
  (72057594037927847, 2, [(2797918538399, 1%nat, 18058820862951702)]);
  (9223372036854764417, 2, [(72057594037927847, 1%nat, 1429091460961554973)]);
  (677213, 2, [(2, 2%nat, 338606); (433, 1%nat, 424051)]);
  (13544261, 2, [(677213, 1%nat, 5088377)]);
  (606593273147, 2, [(13544261, 1%nat, 282756247596)]);
  (9223372036854764401, 2, [(606593273147, 1%nat, 3892974491813771512)]);
  (82293425129, 2, [(967, 1%nat, 53347169272); (1579, 1%nat, 2225962627)]);
  (56947050189269, 2, [(82293425129, 1%nat, 40525530221193)]);
  (9223372036854764317, 2, [(56947050189269, 1%nat, 2382867034845068369)]);
  (30367, 2, [(241, 1%nat, 5786)]);
  (1537228672809127381, 6, [(2, 2%nat, 768614336404563690); (3, 3%nat, 1351005964657985031); (5, 1%nat, 66579843945031829); (173, 1%nat, 280225951875293780); (30367, 1%nat, 494227867898201353)]);
  (9223372036854764287, 2, [(1537228672809127381, 1%nat, 8637761113879858618)]);
  (9223372036854764251, 2, [(2, 1%nat, 4611686018427382125); (3, 1%nat, 1017144624711283298); (5, 3%nat, 4999337237230725600); (7, 1%nat, 8490179602012451020); (11, 1%nat, 7940152456147240597); (127, 1%nat, 6614479896836178170); (659, 1%nat, 8471888253301979342)]);
  (1093, 2, [(2, 2%nat, 546); (13, 1%nat, 538)]);
  (20611, 2, [(229, 1%nat, 13083)]);
  (5317639, 2, [(20611, 1%nat, 1545680)]);
  (9223372036854764233, 2, [(1093, 1%nat, 3289006278337675310); (5317639, 1%nat, 7561861055504359568)]);
  (4801, 7, [(2, 6%nat, 2400); (3, 1%nat, 2420)]);
  (365984867767, 3, [(3, 1%nat, 118045965856); (7, 2%nat, 227613693972); (4801, 1%nat, 298513998220)]);
  (1463939471069, 2, [(365984867767, 1%nat, 97595964738)]);
  (9223372036854764083, 2, [(1463939471069, 1%nat, 1373863553568540302)]);
  (7829, 2, [(103, 1%nat, 2733)]);
  (275424221, 2, [(2, 2%nat, 137712110); (7829, 1%nat, 118572403)]);
  (42103549815829, 2, [(275424221, 1%nat, 40390864461596)]);
  (9223372036854764057, 2, [(42103549815829, 1%nat, 4981105126240154708)]);
  (9223372036854764023, 5, [(2, 1%nat, 4611686018427382011); (3, 1%nat, 8442692363264266216); (13, 1%nat, 6060179995043867629); (29, 1%nat, 7946153556925894944); (47, 1%nat, 2747383664946117709); (151, 1%nat, 1329217132677275707); (239, 1%nat, 1785014726423201287)]);
  (17913540031, 2, [(3, 1%nat, 14272765649); (5, 1%nat, 17861278171); (31, 1%nat, 17322240303); (317, 1%nat, 2276884100)]);
  (9223372036854764011, 2, [(17913540031, 1%nat, 7434618378575603299)]);
  (1933, 2, [(2, 2%nat, 966); (23, 1%nat, 1580)]);
  (111509, 2, [(457, 1%nat, 7763)]);
  (2676217, 2, [(111509, 1%nat, 1283587)]);
  (9223372036854763939, 2, [(1933, 1%nat, 499234767219738539); (2676217, 1%nat, 1087427626448084190)]);
  (10613, 2, [(379, 1%nat, 8518)]);
  (2417535271, 2, [(3, 2%nat, 1814327926); (10613, 1%nat, 1105747908)]);
  (9223372036854763913, 3, [(2, 3%nat, 4611686018427381956); (2417535271, 1%nat, 9125234261906832669)]);
  (56909, 2, [(347, 1%nat, 5415)]);
  (113819, 2, [(56909, 1%nat, 37940)]);
  (179151107, 2, [(113819, 1%nat, 127383948)]);
  (18369079605139, 2, [(179151107, 1%nat, 6500601309636)]);
  (9223372036854763847, 2, [(18369079605139, 1%nat, 204211669627759097)]);
  (93113, 3, [(2, 3%nat, 46556); (103, 1%nat, 71309)]);
  (8117507724527, 2, [(277, 1%nat, 1891877445034); (93113, 1%nat, 1254207837306)]);
  (5958250669802819, 2, [(8117507724527, 1%nat, 5631718952674985)]);
  (9223372036854763813, 2, [(5958250669802819, 1%nat, 5958990828930064326)]);
  (26713, 5, [(2, 3%nat, 13356); (53, 1%nat, 8686)]);
  (627511, 2, [(1609, 1%nat, 77958)]);
  (9223372036854763807, 2, [(26713, 1%nat, 7082361450591719286); (627511, 1%nat, 417289928011593278)]);
  (16927, 2, [(7, 1%nat, 9950); (31, 1%nat, 2450)]);
  (67709, 2, [(16927, 1%nat, 4514)]);
  (1625017, 2, [(67709, 1%nat, 1438193)]);
  (4072292603, 2, [(1625017, 1%nat, 1608413049)]);
  (768614336404563643, 2, [(4072292603, 1%nat, 346290801242512975)]);
  (9223372036854763717, 2, [(768614336404563643, 1%nat, 8721098052918594655)]);
  (193051, 2, [(3, 3%nat, 75414); (5, 2%nat, 149910)]);
  (13899673, 2, [(193051, 1%nat, 5733183)]);
  (15234041609, 2, [(13899673, 1%nat, 2787639656)]);
  (9223372036854763651, 2, [(15234041609, 1%nat, 2879299193151183319)]);
  (14929, 2, [(311, 1%nat, 1299)]);
  (27903951221803, 2, [(2, 1%nat, 13951975610901); (3, 1%nat, 4113476024260); (89, 1%nat, 4089132302473); (14929, 1%nat, 7570965049350)]);
  (9223372036854763621, 2, [(27903951221803, 1%nat, 1056167195319654802)]);
  (1390621, 2, [(7, 2%nat, 874377); (43, 1%nat, 1101510)]);
  (16086703729, 2, [(1390621, 1%nat, 11177450121)]);
  (9223372036854763583, 2, [(16086703729, 1%nat, 2998961500257256089)]);
  (9223372036854763499, 2, [(79, 1%nat, 3996576983188951571); (227, 1%nat, 890956984452660979); (409, 1%nat, 8134027646344696609); (3907, 1%nat, 5495275796413687654)]);
  (20441, 3, [(2, 3%nat, 10220); (73, 1%nat, 13826)]);
  (40883, 2, [(20441, 1%nat, 13628)]);
  (19623841, 2, [(40883, 1%nat, 4506098)]);
  (61721218694657, 2, [(19623841, 1%nat, 46896702011585)]);
  (9223372036854763453, 2, [(61721218694657, 1%nat, 6346581082894250760)]);
  (31883, 2, [(839, 1%nat, 20089)]);
  (446363, 2, [(31883, 1%nat, 169467)]);
  (41065397, 2, [(446363, 1%nat, 9117241)]);
  (4558587590177, 2, [(41065397, 1%nat, 2882071146661)]);
  (9223372036854763393, 2, [(4558587590177, 1%nat, 7739433787538161315)]);
  (7907, 2, [(2, 1%nat, 3953); (59, 1%nat, 3922)]);
  (9223372036854763373, 2, [(2, 2%nat, 4611686018427381686); (13, 1%nat, 9072046470760325690); (17, 2%nat, 3139510730417851105); (53, 1%nat, 6971417848258501134); (7907, 1%nat, 8547382492831753710)]);
  (13831, 2, [(461, 1%nat, 4910)]);
  (127301, 2, [(5, 2%nat, 91999); (19, 1%nat, 49261)]);
  (9223372036854763283, 2, [(2, 1%nat, 4611686018427381641); (13831, 1%nat, 5492880669118870651); (127301, 1%nat, 5975641458785912653)]);
  (93059, 2, [(2, 1%nat, 46529); (17, 2%nat, 846)]);
  (186119, 2, [(93059, 1%nat, 62040)]);
  (5207237383, 2, [(186119, 1%nat, 4003000731)]);
  (9223372036854763153, 2, [(5207237383, 1%nat, 6083721064480623521)]);
  (491501, 2, [(983, 1%nat, 34364)]);
  (72366281457269, 2, [(43, 1%nat, 552171147804); (491501, 1%nat, 11079915532527)]);
  (9223372036854763127, 2, [(72366281457269, 1%nat, 3747888583345640417)]);
  (2087, 2, [(149, 1%nat, 20)]);
  (75133, 2, [(2087, 1%nat, 3178)]);
  (125803, 2, [(2, 1%nat, 62901); (241, 1%nat, 124650)]);
  (9223372036854763057, 2, [(75133, 1%nat, 569237689306473853); (125803, 1%nat, 136740936374040584)]);
  (1831, 2, [(61, 1%nat, 977)]);
  (10987, 2, [(1831, 1%nat, 872)]);
  (1186597, 2, [(10987, 1%nat, 95652)]);
  (35092419679, 2, [(1186597, 1%nat, 321324264)]);
  (9223372036854763027, 2, [(35092419679, 1%nat, 1805718375654789337)]);
  (1637, 2, [(409, 1%nat, 764)]);
  (4461253, 2, [(2, 2%nat, 2230626); (1013, 1%nat, 2495162)]);
  (9223372036854763013, 2, [(1637, 1%nat, 1284788629322773809); (4461253, 1%nat, 7772298142975445870)]);
  (226631, 2, [(5, 1%nat, 205677); (131, 1%nat, 219162)]);
  (9223372036854762799, 3, [(2, 1%nat, 4611686018427381399); (113, 2%nat, 9113990329776699096); (226631, 1%nat, 7537757038786648007)]);
  (654977023601, 2, [(5, 2%nat, 497546005661); (79, 1%nat, 405773259903); (463, 1%nat, 603499992067)]);
  (9223372036854762779, 2, [(654977023601, 1%nat, 6036698148478560761)]);
  (34141, 2, [(569, 1%nat, 28879)]);
  (409693, 2, [(34141, 1%nat, 48823)]);
  (28678511, 2, [(409693, 1%nat, 26060826)]);
  (40453386126555977, 3, [(2, 3%nat, 20226693063277988); (28678511, 1%nat, 16334029051928447)]);
  (9223372036854762757, 2, [(40453386126555977, 1%nat, 2113633200317204329)]);
  (4409, 3, [(2, 3%nat, 2204); (19, 1%nat, 1505)]);
  (8819, 2, [(4409, 1%nat, 2940)]);
  (9223372036854762713, 3, [(2, 3%nat, 4611686018427381356); (307, 1%nat, 4671632242158720778); (347, 1%nat, 5492001626342321705); (8819, 1%nat, 1579965815453487827)]);
  (17359789, 6, [(2, 2%nat, 8679894); (3, 1%nat, 269516); (17, 1%nat, 2291329); (43, 1%nat, 12688679)]);
  (4177251828285671, 2, [(5, 1%nat, 1753455373529478); (17359789, 1%nat, 3646475186610693)]);
  (8354503656571343, 2, [(4177251828285671, 1%nat, 2784834552190448)]);
  (9223372036854762673, 2, [(8354503656571343, 1%nat, 4175276702057412179)]);
  (6203, 2, [(443, 1%nat, 666)]);
  (9223372036854762643, 3, [(3, 2%nat, 4512589643862771000); (193, 1%nat, 396741715856974581); (311, 1%nat, 2019120419481190640); (6203, 1%nat, 5443809052106165890)]);
  (5147, 2, [(83, 1%nat, 3958)]);
  (257351, 2, [(5147, 1%nat, 242590)]);
  (12842329603, 2, [(257351, 1%nat, 4778819704)]);
  (9223372036854762551, 2, [(12842329603, 1%nat, 31180702569945122)]);
  (8447, 2, [(103, 1%nat, 7350)]);
  (3598423, 2, [(8447, 1%nat, 1994986)]);
  (9223372036854762529, 13, [(2, 5%nat, 4611686018427381264); (7, 2%nat, 1665510713038732858); (3598423, 1%nat, 2366616807083734455)]);
  (32563, 2, [(3, 5%nat, 11563)]);
  (130253, 2, [(32563, 1%nat, 112886)]);
  (65026593604447, 5, [(2, 1%nat, 32513296802223); (3, 1%nat, 13771571676411); (17, 1%nat, 32237280530179); (130253, 1%nat, 50555524195776)]);
  (9223372036854762481, 2, [(65026593604447, 1%nat, 8479205359390654730)]);
  (41299897, 10, [(2, 3%nat, 20649948); (3, 1%nat, 34847293); (11, 1%nat, 38228643); (73, 1%nat, 1115517)]);
  (4377789083, 2, [(41299897, 1%nat, 2049860890)]);
  (140089250657, 2, [(4377789083, 1%nat, 112338788778)]);
  (37263740674763, 2, [(140089250657, 1%nat, 7318782148342)]);
  (74527481349527, 2, [(37263740674763, 1%nat, 24842493783176)]);
  (9223372036854762467, 2, [(74527481349527, 1%nat, 7752366500581075989)]);
  (8539, 2, [(1423, 1%nat, 6777)]);
  (34157, 2, [(8539, 1%nat, 15940)]);
  (11135183, 2, [(34157, 1%nat, 7005045)]);
  (27621667705409, 2, [(11135183, 1%nat, 2876608627011)]);
  (9223372036854762463, 2, [(27621667705409, 1%nat, 5664879255498963544)]);
  (39594878849, 3, [(2, 7%nat, 19797439424); (7, 2%nat, 25810542772); (43, 1%nat, 21477439255)]);
  (461168601842738123, 2, [(39594878849, 1%nat, 445971254978780625)]);
  (9223372036854762461, 2, [(461168601842738123, 1%nat, 5451463014270863532)]);
  (146584973, 2, [(2, 2%nat, 73292486); (37, 1%nat, 91004698); (83, 1%nat, 48727527)]);
  (5979201048671, 2, [(146584973, 1%nat, 2153767019484)]);
  (251126444044183, 2, [(5979201048671, 1%nat, 32748381188727)]);
  (1004505776176733, 2, [(251126444044183, 1%nat, 870571672686502)]);
  (9223372036854762407, 2, [(1004505776176733, 1%nat, 8218881387587045558)]);
  (416621, 2, [(2, 2%nat, 208310); (563, 1%nat, 383356)]);
  (3127157227, 2, [(416621, 1%nat, 1694509225)]);
  (9223372036854762179, 2, [(3127157227, 1%nat, 616073622591559145)]);
  (247997, 2, [(521, 1%nat, 208922)]);
  (51087383, 2, [(247997, 1%nat, 19203924)]);
  (3285940474561, 2, [(51087383, 1%nat, 2320066094361)]);
  (9223372036854762121, 2, [(3285940474561, 1%nat, 4983905032693703973)]);
  (35201, 3, [(2, 7%nat, 17600); (5, 2%nat, 17928)]);
  (460561, 7, [(2, 4%nat, 230280); (101, 1%nat, 154119)]);
  (9223372036854762119, 2, [(35201, 1%nat, 8802272256377767206); (460561, 1%nat, 1733441931631917625)]);
  (923933020799, 2, [(71, 2%nat, 74902651123); (197, 1%nat, 171333487708)]);
  (3786277519234303, 2, [(923933020799, 1%nat, 3648024532931565)]);
  (9223372036854762109, 2, [(3786277519234303, 1%nat, 3678779558579047528)]);
  (19183, 2, [(139, 1%nat, 16672)]);
  (76733, 2, [(19183, 1%nat, 66502)]);
  (6905971, 2, [(76733, 1%nat, 4349849)]);
  (6463988857, 2, [(6905971, 1%nat, 2928919175)]);
  (9223372036854762071, 2, [(6463988857, 1%nat, 8924008468498280600)]);
  (9007, 3, [(2, 1%nat, 4503); (79, 1%nat, 3381)]);
  (306239, 2, [(9007, 1%nat, 128715)]);
  (3752388949086559, 2, [(11, 1%nat, 1269216868040889); (19, 1%nat, 2472460811694640); (306239, 1%nat, 849467793284032)]);
  (9223372036854762023, 2, [(3752388949086559, 1%nat, 4338874200330705112)]);
  (4057, 2, [(13, 2%nat, 3245)]);
  (11830213, 2, [(4057, 1%nat, 6195992)]);
  (2957553251, 2, [(11830213, 1%nat, 675293794)]);
  (1804965173552791, 2, [(2957553251, 1%nat, 1551360312036814)]);
  (9223372036854762011, 2, [(1804965173552791, 1%nat, 975060557455462900)])].
Definition certs : list (list entry) := [certs_0; certs_1; certs_2; certs_3; certs_4].
