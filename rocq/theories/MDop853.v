(** Coefficients of DOP853, transcribed by tools/gen_dop853.py from
    nbkode/runge_kutta/dop853_coefficients.py (each decimal literal as the exact
    rational it denotes; the float is its correct rounding). *)
From Coq Require Import List QArith.
Import ListNotations.
Local Open Scope Q_scope.

(** dop853_coefficients.py:3 *)
Definition dop_n_stages : nat := 12.
(** dop853_coefficients.py:7-26 *)
Definition dop_C : list Q :=
  [0; (65750189948459664848198443061 # 1250000000000000000000000000000); (197250569845378994544595329183 # 2500000000000000000000000000000); (11835034190722739672675719751 # 100000000000000000000000000000); (28164965809277260327324280249 # 100000000000000000000000000000); (333333333333333333333333333333 # 1000000000000000000000000000000); (1 # 4); (76923076923076923076923076923 # 250000000000000000000000000000); (325641025641025641025641025641 # 500000000000000000000000000000); (3 # 5); (428571428571428571428571428571 # 500000000000000000000000000000); (1 # 1); (1 # 1); (1 # 10); (1 # 5); (388888888888888888888888888889 # 500000000000000000000000000000)].
(** dop853_coefficients.py:28-124 *)
Definition dop_A : list (list Q) :=
  [[0; 0; 0; 0; 0; 0; 0; 0; 0; 0; 0; 0; 0; 0; 0; 0];
   [(65750189948459664848198443061 # 1250000000000000000000000000000); 0; 0; 0; 0; 0; 0; 0; 0; 0; 0; 0; 0; 0; 0; 0];
   [(197250569845378994544595329183 # 10000000000000000000000000000000); (591751709536136983633785987549 # 10000000000000000000000000000000); 0; 0; 0; 0; 0; 0; 0; 0; 0; 0; 0; 0; 0; 0];
   [(11835034190722739672675719751 # 400000000000000000000000000000); 0; (221906891076051368862669745331 # 2500000000000000000000000000000); 0; 0; 0; 0; 0; 0; 0; 0; 0; 0; 0; 0; 0];
   [(48273026831853337100473959733 # 200000000000000000000000000000); 0; (-884549479328286085344864962717 # 1000000000000000000000000000000); (924834003261792003115737966543 # 1000000000000000000000000000000); 0; 0; 0; 0; 0; 0; 0; 0; 0; 0; 0; 0];
   [(37037037037037037037037037037 # 1000000000000000000000000000000); 0; 0; (170828608729473871279604482173 # 1000000000000000000000000000000); (125467687566822425016691814123 # 1000000000000000000000000000000); 0; 0; 0; 0; 0; 0; 0; 0; 0; 0; 0];
   [(19 # 512); 0; 0; (10640763188721502457186128767 # 62500000000000000000000000000); (602165389804559606850219397283 # 10000000000000000000000000000000); (-9 # 512); 0; 0; 0; 0; 0; 0; 0; 0; 0; 0];
   [(92730000296261981777194829959 # 2500000000000000000000000000000); 0; 0; (34076785142447998762042810941 # 200000000000000000000000000000); (1675969225724582572684518737 # 15625000000000000000000000000); (-38298594371561004381984039559 # 2500000000000000000000000000000); (413689458190701144379236883001 # 50000000000000000000000000000000); 0; 0; 0; 0; 0; 0; 0; 0; 0];
   [(156027739679018929278607394453 # 250000000000000000000000000000); 0; 0; (-13443570517787765176274284393 # 4000000000000000000000000000); (-868219346841726006818189891453 # 1000000000000000000000000000000); (275920996994467083049415600797 # 10000000000000000000000000000); (201540675504778934086186788979 # 10000000000000000000000000000); (-54362355226337448559670781893 # 1250000000000000000000000000); 0; 0; 0; 0; 0; 0; 0; 0];
   [(477662536438264365890433908527 # 1000000000000000000000000000000); 0; 0; (-62202865499291691048160646617 # 25000000000000000000000000000); (-590290826836842996371446475743 # 1000000000000000000000000000000); (212300514481811942347288949897 # 10000000000000000000000000000); (76396168164412117916298461469 # 5000000000000000000000000000); (-332882109689848629194453265587 # 10000000000000000000000000000); (-203312017085086261358222928593 # 10000000000000000000000000000000); 0; 0; 0; 0; 0; 0; 0];
   [(-46857121504299366285852010829 # 50000000000000000000000000000); 0; 0; (518637242884406370830023853209 # 100000000000000000000000000000); (54571867449836478909250127327 # 50000000000000000000000000000); (-814978701074692612513997267357 # 100000000000000000000000000000); (-185200656599969598641566180701 # 10000000000000000000000000000); (113697435496752521409485028367 # 5000000000000000000000000000); (124680277633982619493544698381 # 50000000000000000000000000000); (-15233822359491097501911834511 # 5000000000000000000000000000); 0; 0; 0; 0; 0; 0];
   [(227331014751653820792359768449 # 100000000000000000000000000000); 0; 0; (-105344954667372501984066689879 # 10000000000000000000000000000); (-50021801455621562477418929611 # 25000000000000000000000000000); (-89794659315593994586382975267 # 5000000000000000000000000000); (279488845294199600508499808837 # 10000000000000000000000000000); (-142949913856751184737032754337 # 50000000000000000000000000000); (-443642846676531477216774644629 # 50000000000000000000000000000); (15450708969742878830908275191 # 1250000000000000000000000000); (321696373007881765177985242023 # 500000000000000000000000000000); 0; 0; 0; 0; 0];
   [(542937341165687622380535766363 # 10000000000000000000000000000000); 0; 0; 0; 0; (222515644637620444072056975283 # 50000000000000000000000000000); (47287947482862509576070399761 # 25000000000000000000000000000); (-58012039600105847814672114227 # 10000000000000000000000000000); (31116436695781989440891606237 # 100000000000000000000000000000); (-30432189932503215711235761361 # 200000000000000000000000000000); (201365400804030348374776537501 # 1000000000000000000000000000000); (447106157277725905176885569043 # 10000000000000000000000000000000); 0; 0; 0; 0];
   [(561675022830479523392909219681 # 10000000000000000000000000000000); 0; 0; 0; 0; 0; (253500210216624811088794765333 # 1000000000000000000000000000000); (-246239037470802489917441475441 # 1000000000000000000000000000000); (-62095711631908180234505070313 # 500000000000000000000000000000); (3065835965575313946241264537 # 20000000000000000000000000000); (820105229563468988491666602057 # 100000000000000000000000000000000); (47299360378410623508662724349 # 6250000000000000000000000000000); (-4149 # 500000); 0; 0; 0];
   [(318346481635021405060768473261 # 10000000000000000000000000000000); 0; 0; 0; 0; (141504548361833877644161480701 # 5000000000000000000000000000000); (133854970768596419055949346093 # 2500000000000000000000000000000); (-274618742856954942323284670153 # 5000000000000000000000000000000); 0; 0; (-54173664348624661429254658497 # 500000000000000000000000000000000); (382571090835658412954920192323 # 1000000000000000000000000000000000); (-85116252171851140200744278623 # 250000000000000000000000000000000); (70656221837316250139037309183 # 500000000000000000000000000000); 0; 0];
   [(-107224075395947980852143384673 # 250000000000000000000000000000); 0; 0; 0; 0; (-234881070768058192157224723603 # 50000000000000000000000000000); (384171059803129952092120476939 # 50000000000000000000000000000); (406898981839711007970213554331 # 100000000000000000000000000000); (356727187455281109270669543021 # 1000000000000000000000000000000); 0; 0; 0; (-69951208257950731064709004867 # 50000000000000000000000000000000); (29475147891527723389556272149 # 10000000000000000000000000000); (-457547923608993500540935093569 # 50000000000000000000000000000); 0]].
(** dop853_coefficients.py:131-133: what is subtracted from B, by index *)
Definition dop_E3_sub : list (nat * Q) :=
  [(0%nat, (30511811023622047244094488189 # 125000000000000000000000000000)); (8%nat, (733846688281611857341361741547 # 1000000000000000000000000000000)); (11%nat, (55147058823529411764705882353 # 2500000000000000000000000000000))].
(** dop853_coefficients.py:135-143 *)
Definition dop_E5 : list Q :=
  [(328001124854872018312525749 # 25000000000000000000000000000); 0; 0; 0; 0; (-1225156446376204440720569753 # 1000000000000000000000000000); (-309849343535781369700879997 # 625000000000000000000000000); (332875436490997307392306083 # 200000000000000000000000000); (-350328848749973681688648729 # 1000000000000000000000000000); (3341791187130174790297318841 # 10000000000000000000000000000); (8192320648511571246570742613 # 100000000000000000000000000000); (-447106157277725905176885569 # 20000000000000000000000000000); 0].
(** dop853_coefficients.py:146-197 *)
Definition dop_D : list (list Q) :=
  [[(-42144691380545064325676745571 # 5000000000000000000000000000); 0; 0; 0; 0; (5667149535193777696253178359 # 10000000000000000000000000000); (-30689499459498916912797304727 # 10000000000000000000000000000); (298083457064008728596601871 # 125000000000000000000000000); (10585172912225141383577574973 # 5000000000000000000000000000); (-8713915837779729920678990749 # 10000000000000000000000000000); (448087486052157655170835433 # 200000000000000000000000000); (6315787787694688181557024929 # 10000000000000000000000000000); (-444951682256666554103490587 # 5000000000000000000000000000); (9074252760427363628328202481 # 500000000000000000000000000); (-22986580981195888500112996109 # 2500000000000000000000000000); (-11090090968987234916077643 # 2500000000000000000000000)];
   [(10427508642579134603413151009 # 1000000000000000000000000000); 0; 0; 0; 0; (24228349177525818288430175319 # 100000000000000000000000000); (16520045171727028198505394887 # 100000000000000000000000000); (-4681834434033627534939789019 # 12500000000000000000000000); (-11056833426562653018135469289 # 500000000000000000000000000); (9666790835590329798700487351 # 1250000000000000000000000000); (-15337042365544699091030606813 # 500000000000000000000000000); (-46660652632151139364783610853 # 5000000000000000000000000000); (627889524870833755445243643 # 40000000000000000000000000); (-31139403219565177677282850411 # 1000000000000000000000000000); (-11691155448555597983214232833 # 1250000000000000000000000000); (1790842074319704187623294927 # 50000000000000000000000000)];
   [(19985053242002433820987653617 # 1000000000000000000000000000); 0; 0; 0; 0; (-19351865437467588277552950871 # 50000000000000000000000000); (-2364726727439594610353854791 # 12500000000000000000000000); (26390407960271182450280508343 # 50000000000000000000000000); (-5786951269979815063070935567 # 500000000000000000000000000); (68812326946963000169666922661 # 10000000000000000000000000000); (-500302548345541920159193049 # 500000000000000000000000000); (3888568899026721604643463287 # 5000000000000000000000000000); (-27782057523535084065932004339 # 10000000000000000000000000000); (-30098347615632060379133690423 # 500000000000000000000000000); (10540050688334645127269987973 # 125000000000000000000000000); (1199229113618278932803513003 # 100000000000000000000000000)];
   [(-25693933462703749003312586129 # 1000000000000000000000000000); 0; 0; 0; 0; (-15418974869023643374053993627 # 100000000000000000000000000); (-23152937917604549567536039109 # 100000000000000000000000000); (3576391179106141237828534991 # 10000000000000000000000000); (11675665522953038750488461463 # 125000000000000000000000000); (-37458323136451633156875139351 # 1000000000000000000000000000); (1301245618862028755643405773 # 12500000000000000000000000); (29840293426660503123344363579 # 1000000000000000000000000000); (-21766728295005571877216087529 # 500000000000000000000000000); (481622769795941414741974753 # 5000000000000000000000000); (-9794315418903859791307871543 # 250000000000000000000000000); (-3743170906449640645355531319 # 25000000000000000000000000)]].
