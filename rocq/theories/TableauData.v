(* TableauData.v -- generated by tools/gen_tableau.py from nosnoc/rk_utils.py:49-1052.
   The decimal literals of generate_butcher_tableu as exact rationals (the float
   rounding of the literals is not modelled). *)
From Verif Require Import Base.
#[local] Open Scope Q_scope.

(* rk_utils.py:52-55 *)
Definition radau_A_1 : list (list Q) :=
  [ [(1 # 1)] ].
Definition radau_b_1 : list Q := [(1 # 1)].
Definition radau_c_1 : list Q := [(1 # 1)].

(* rk_utils.py:56-59 *)
Definition radau_A_2 : list (list Q) :=
  [ [(4166666666666666 # 10000000000000000); (-8333333333333334 # 100000000000000000)]
  ; [(75 # 100); (25 # 100)] ].
Definition radau_b_2 : list Q := [(75 # 100); (25 # 100)].
Definition radau_c_2 : list Q := [(3333333333333334 # 10000000000000000); (1 # 1)].

(* rk_utils.py:60-83 *)
Definition radau_A_3 : list (list Q) :=
  [ [(19681547722366 # 100000000000000); (-65535425850198 # 1000000000000000); (2377097434822 # 100000000000000)]
  ; [(394424314739087 # 1000000000000000); (292073411665228 # 1000000000000000); (-41548752125998 # 1000000000000000)]
  ; [(376403062700467 # 1000000000000000); (512485826188421 # 1000000000000000); (11111111111111 # 100000000000000)] ].
Definition radau_b_3 : list Q := [(376403062700467 # 1000000000000000); (512485826188421 # 1000000000000000); (11111111111111 # 100000000000000)].
Definition radau_c_3 : list Q := [(155051025721682 # 1000000000000000); (644948974278318 # 1000000000000000); (1 # 1)].

(* rk_utils.py:85-118 *)
Definition radau_A_4 : list (list Q) :=
  [ [(112999479323157 # 1000000000000000); (-40309220723522 # 1000000000000000); (25802377420337 # 1000000000000000); (-9904676507266 # 1000000000000000)]
  ; [(2343839957474 # 10000000000000); (206892573935358 # 1000000000000000); (-4785712804854 # 100000000000000); (16047422806516 # 1000000000000000)]
  ; [(216681784623251 # 1000000000000000); (406123263867372 # 1000000000000000); (189036518170056 # 1000000000000000); (-24182104899833 # 1000000000000000)]
  ; [(220462211176769 # 1000000000000000); (388193468843169 # 1000000000000000); (328844319980059 # 1000000000000000); (625 # 10000)] ].
Definition radau_b_4 : list Q := [(220462211176769 # 1000000000000000); (388193468843169 # 1000000000000000); (328844319980059 # 1000000000000000); (625 # 10000)].
Definition radau_c_4 : list Q := [(88587959512704 # 1000000000000000); (409466864440735 # 1000000000000000); (787659461760847 # 1000000000000000); (1 # 1)].

(* rk_utils.py:119-168 *)
Definition radau_A_5 : list (list Q) :=
  [ [(72998864317904 # 1000000000000000); (-26735331107946 # 1000000000000000); (18676929763985 # 1000000000000000); (-12879106093307 # 1000000000000000); (5042839233882 # 1000000000000000)]
  ; [(153775231479183 # 1000000000000000); (146214867847492 # 1000000000000000); (-36444568905127 # 1000000000000000); (21233063119304 # 1000000000000000); (-7935579902729 # 1000000000000000)]
  ; [(14006304568481 # 100000000000000); (298967129491284 # 1000000000000000); (167585070135249 # 1000000000000000); (-33969101686618 # 1000000000000000); (10944288744192 # 1000000000000000)]
  ; [(144894308109535 # 1000000000000000); (276500068760161 # 1000000000000000); (325797922910417 # 1000000000000000); (128756753254908 # 1000000000000000); (-15708917378806 # 1000000000000000)]
  ; [(143713560791225 # 1000000000000000); (281356015149471 # 1000000000000000); (311826522975734 # 1000000000000000); (223103901083569 # 1000000000000000); (39999999999999 # 1000000000000000)] ].
Definition radau_b_5 : list Q := [(143713560791225 # 1000000000000000); (281356015149471 # 1000000000000000); (311826522975734 # 1000000000000000); (223103901083569 # 1000000000000000); (39999999999999 # 1000000000000000)].
Definition radau_c_5 : list Q := [(57104196114518 # 1000000000000000); (276843013638124 # 1000000000000000); (583590432368917 # 1000000000000000); (860240135656219 # 1000000000000000); (1 # 1)].

(* rk_utils.py:169-233 *)
Definition radau_A_6 : list (list Q) :=
  [ [(50950010994641 # 1000000000000000); (-18907306554292 # 1000000000000000); (13686071433088 # 1000000000000000); (-10370038766046 # 1000000000000000); (736065639664 # 100000000000000); (-2909536452562 # 1000000000000000)]
  ; [(108221658919059 # 1000000000000000); (106975519937331 # 1000000000000000); (-27539023355392 # 1000000000000000); (17496747141228 # 1000000000000000); (-11653721891195 # 1000000000000000); (4512237122577 # 1000000000000000)]
  ; [(97779670092646 # 1000000000000000); (223172250636896 # 1000000000000000); (136314679273052 # 1000000000000000); (-29646965988196 # 1000000000000000); (16358578843438 # 1000000000000000); (-6003402610448 # 1000000000000000)]
  ; [(102122375612935 # 1000000000000000); (202975957373093 # 1000000000000000); (276399136380739 # 1000000000000000); (131006023136051 # 1000000000000000); (-24876303199822 # 1000000000000000); (7837084050643 # 1000000000000000)]
  ; [(10033100138496 # 100000000000000); (210247308553335 # 1000000000000000); (256085372050322 # 1000000000000000); (253365934704577 # 1000000000000000); (92430534335701 # 1000000000000000); (-10995236827731 # 1000000000000000)]
  ; [(10079419262674 # 100000000000000); (208450667155965 # 1000000000000000); (260463391594751 # 1000000000000000); (242693594234513 # 1000000000000000); (159820376610253 # 1000000000000000); (2777777777778 # 100000000000000)] ].
Definition radau_b_6 : list Q := [(10079419262674 # 100000000000000); (208450667155965 # 1000000000000000); (260463391594751 # 1000000000000000); (242693594234513 # 1000000000000000); (159820376610253 # 1000000000000000); (2777777777778 # 100000000000000)].
Definition radau_c_6 : list Q := [(39809857051469 # 1000000000000000); (198013417873608 # 1000000000000000); (437974810247386 # 1000000000000000); (695464273353636 # 1000000000000000); (901464914201173 # 1000000000000000); (1 # 1)].

(* rk_utils.py:234-315 *)
Definition radau_A_7 : list (list Q) :=
  [ [(37546264993922 # 1000000000000000); (-14039334556461 # 1000000000000000); (10352789600743 # 1000000000000000); (-8158322540275 # 1000000000000000); (6388413879535 # 1000000000000000); (-4602326779149 # 1000000000000000); (1828942561471 # 1000000000000000)]
  ; [(8014759651562 # 100000000000000); (81062063985891 # 1000000000000000); (-21237992120711 # 1000000000000000); (14000291238817 # 1000000000000000); (-1023418573009 # 100000000000000); (7153465151364 # 1000000000000000); (-2812639372407 # 1000000000000000)]
  ; [(72063846941883 # 1000000000000000); (171068354983886 # 1000000000000000); (109614564040073 # 1000000000000000); (-24619871728985 # 1000000000000000); (1476037704395 # 100000000000000); (-9575259396791 # 1000000000000000); (3672678397138 # 1000000000000000)]
  ; [(75705125819825 # 1000000000000000); (154090155142168 # 1000000000000000); (227107736673208 # 1000000000000000); (117478187037015 # 1000000000000000); (-23810827153042 # 1000000000000000); (12709985533668 # 1000000000000000); (-4608844281289 # 1000000000000000)]
  ; [(73912342163194 # 1000000000000000); (161355607615931 # 1000000000000000); (206867241552146 # 1000000000000000); (237007115342664 # 1000000000000000); (103086793533791 # 1000000000000000); (-18854139152552 # 1000000000000000); (5858900974893 # 1000000000000000)]
  ; [(74705562059812 # 1000000000000000); (158307223872441 # 1000000000000000); (214153423267192 # 1000000000000000); (219877847031825 # 1000000000000000); (198752121680627 # 1000000000000000); (69265501605543 # 1000000000000000); (-8116008197746 # 1000000000000000)]
  ; [(74494235556031 # 1000000000000000); (159102115733617 # 1000000000000000); (212351889503054 # 1000000000000000); (22355491450719 # 100000000000000); (190474936822056 # 1000000000000000); (119613744612707 # 1000000000000000); (20408163265273 # 1000000000000000)] ].
Definition radau_b_7 : list Q := [(74494235556031 # 1000000000000000); (159102115733617 # 1000000000000000); (212351889503054 # 1000000000000000); (22355491450719 # 100000000000000); (190474936822056 # 1000000000000000); (119613744612707 # 1000000000000000); (20408163265273 # 1000000000000000)].
Definition radau_c_7 : list Q := [(29316427159785 # 1000000000000000); (148078599668484 # 1000000000000000); (336984690281154 # 1000000000000000); (55867151877155 # 100000000000000); (769233862030055 # 1000000000000000); (926945671319741 # 1000000000000000); (1 # 1)].

(* rk_utils.py:316-416 *)
Definition radau_A_8 : list (list Q) :=
  [ [(28802823892618 # 1000000000000000); (-10821698052016 # 1000000000000000); (8069010203852 # 1000000000000000); (-6493073596536 # 1000000000000000); (5300041017295 # 1000000000000000); (-422330965001 # 100000000000000); (3069413349141 # 1000000000000000); (-122382072563 # 100000000000000)]
  ; [(61680826212951 # 1000000000000000); (63307905435285 # 1000000000000000); (-16766167621301 # 1000000000000000); (11276575963179 # 1000000000000000); (-8575400848083 # 1000000000000000); (6607056898422 # 1000000000000000); (-4723817373992 # 1000000000000000); (1872074494442 # 1000000000000000)]
  ; [(55285563267235 # 1000000000000000); (134572019854444 # 1000000000000000); (88830181899131 # 1000000000000000); (-20322485837009 # 1000000000000000); (12631022220424 # 1000000000000000); (-8970025754043 # 1000000000000000); (6180900917007 # 1000000000000000); (-2417353782599 # 1000000000000000)]
  ; [(58300686057541 # 1000000000000000); (120477661477342 # 1000000000000000); (186414284318503 # 1000000000000000); (101430904157414 # 1000000000000000); (-21196196398552 # 1000000000000000); (12247274295402 # 1000000000000000); (-7798637777912 # 1000000000000000); (2970397539715 # 1000000000000000)]
  ; [(56682008984804 # 1000000000000000); (127043161483419 # 1000000000000000); (168088370419389 # 1000000000000000); (209202248763793 # 1000000000000000); (99187005744731 # 1000000000000000); (-19275308810477 # 1000000000000000); (10069646505077 # 1000000000000000); (-362185020403 # 100000000000000)]
  ; [(57543032017261 # 1000000000000000); (123740992239338 # 1000000000000000); (175951552284005 # 1000000000000000); (190819813746984 # 1000000000000000); (199456888942931 # 1000000000000000); (8243702475778 # 100000000000000); (-14724795758206 # 1000000000000000); (4534800032808 # 1000000000000000)]
  ; [(57146971559293 # 1000000000000000); (125220694738182 # 1000000000000000); (172643313188367 # 1000000000000000); (197414436139205 # 1000000000000000); (185210784696057 # 1000000000000000); (158621287474583 # 1000000000000000); (53712487445948 # 1000000000000000); (-6232535779285 # 1000000000000000)]
  ; [(5725440737217 # 100000000000000); (124823950664929 # 1000000000000000); (173507397817925 # 1000000000000000); (195786083725501 # 1000000000000000); (188258772694223 # 1000000000000000); (152065310323877 # 1000000000000000); (92679077400701 # 1000000000000000); (15624999999989 # 1000000000000000)] ].
Definition radau_b_8 : list Q := [(5725440737217 # 100000000000000); (124823950664929 # 1000000000000000); (173507397817925 # 1000000000000000); (195786083725501 # 1000000000000000); (188258772694223 # 1000000000000000); (152065310323877 # 1000000000000000); (92679077400701 # 1000000000000000); (15624999999989 # 1000000000000000)].
Definition radau_c_8 : list Q := [(22479386438713 # 1000000000000000); (114679053160904 # 1000000000000000); (26578982278459 # 100000000000000); (452846373669445 # 1000000000000000); (64737528288683 # 100000000000000); (819759308263108 # 1000000000000000); (943737439463077 # 1000000000000000); (1 # 1)].

(* rk_utils.py:417-538 *)
Definition radau_A_9 : list (list Q) :=
  [ [(2278837879346 # 100000000000000); (-8589639752939 # 1000000000000000); (6451029176996 # 1000000000000000); (-525752869975 # 100000000000000); (4388833809362 # 1000000000000000); (-3651215553691 # 1000000000000000); (2940488213753 # 1000000000000000); (-2149274163883 # 1000000000000000); (858843324058 # 1000000000000000)]
  ; [(489079524475 # 10000000000000); (50702050480828 # 1000000000000000); (-13523807196021 # 1000000000000000); (9209373774305 # 1000000000000000); (-7155713317537 # 1000000000000000); (5747246699432 # 1000000000000000); (-4542582976394 # 1000000000000000); (3288161681791 # 1000000000000000); (-1309073694109 # 1000000000000000)]
  ; [(43742760091572 # 1000000000000000); (10830189290274 # 100000000000000); (72919565937428 # 1000000000000000); (-16879877210016 # 1000000000000000); (10704551844802 # 1000000000000000); (-7901946479239 # 1000000000000000); (599140694218 # 100000000000000); (-4248024439987 # 1000000000000000); (167814980615 # 100000000000000)]
  ; [(46249237453949 # 1000000000000000); (965607307268 # 10000000000000); (154298769790035 # 1000000000000000); (86719369303118 # 1000000000000000); (-18451639643615 # 1000000000000000); (11036658729825 # 1000000000000000); (-7673280940271 # 1000000000000000); (5228224999886 # 1000000000000000); (-2035905836478 # 1000000000000000)]
  ; [(44834436586896 # 1000000000000000); (102306849685959 # 1000000000000000); (138217634192387 # 1000000000000000); (181263934682107 # 1000000000000000); (90433600599454 # 1000000000000000); (-18085063366811 # 1000000000000000); (10193387903882 # 1000000000000000); (-6405265418863 # 1000000000000000); (2427169938414 # 1000000000000000)]
  ; [(45658755719302 # 1000000000000000); (99145470489361 # 1000000000000000); (145747040497213 # 1000000000000000); (163648281233691 # 1000000000000000); (185944587344693 # 1000000000000000); (83613260231573 # 1000000000000000); (-1580993614607 # 100000000000000); (8138252693868 # 1000000000000000); (-2910469207819 # 1000000000000000)]
  ; [(45200600187684 # 1000000000000000); (100853706718908 # 1000000000000000); (141942236794193 # 1000000000000000); (171189471837806 # 1000000000000000); (169783386170366 # 1000000000000000); (167768291173161 # 1000000000000000); (67079034322205 # 1000000000000000); (-11792230536457 # 1000000000000000); (360924628859 # 100000000000000)]
  ; [(45416516657269 # 1000000000000000); (100060402446161 # 1000000000000000); (143652840987215 # 1000000000000000); (168019080978866 # 1000000000000000); (175560768418563 # 1000000000000000); (155886270451902 # 1000000000000000); (128893913517004 # 1000000000000000); (42810826024379 # 1000000000000000); (-4934574771255 # 1000000000000000)]
  ; [(45357252461599 # 1000000000000000); (100276649011903 # 1000000000000000); (143193348179011 # 1000000000000000); (168846983486219 # 1000000000000000); (174136501388603 # 1000000000000000); (158421887836084 # 1000000000000000); (123594689101992 # 1000000000000000); (73827009522574 # 1000000000000000); (12345679012242 # 1000000000000000)] ].
Definition radau_b_9 : list Q := [(45357252461599 # 1000000000000000); (100276649011903 # 1000000000000000); (143193348179011 # 1000000000000000); (168846983486219 # 1000000000000000); (174136501388603 # 1000000000000000); (158421887836084 # 1000000000000000); (123594689101992 # 1000000000000000); (73827009522574 # 1000000000000000); (12345679012242 # 1000000000000000)].
Definition radau_c_9 : list Q := [(17779915147364 # 1000000000000000); (91323607899794 # 1000000000000000); (21430847939563 # 100000000000000); (371932164583272 # 1000000000000000); (545186684803427 # 1000000000000000); (71317524285557 # 100000000000000); (855633742957854 # 1000000000000000); (95536604471003 # 100000000000000); (1 # 1)].

(* rk_utils.py:545-554 *)
Definition gauss_A_1 : list (list Q) :=
  [ [(5 # 10)] ].
Definition gauss_b_1 : list Q := [(1 # 1)].
Definition gauss_c_1 : list Q := [(5 # 10)].

(* rk_utils.py:555-570 *)
Definition gauss_A_2 : list (list Q) :=
  [ [(25 # 100); (-38675134594813 # 1000000000000000)]
  ; [(538675134594813 # 1000000000000000); (25 # 100)] ].
Definition gauss_b_2 : list Q := [(5 # 10); (5 # 10)].
Definition gauss_c_2 : list Q := [(211324865405187 # 1000000000000000); (788675134594813 # 1000000000000000)].

(* rk_utils.py:571-594 *)
Definition gauss_A_3 : list (list Q) :=
  [ [(138888888888889 # 1000000000000000); (-35976667524939 # 1000000000000000); (9789444015308 # 1000000000000000)]
  ; [(300263194980865 # 1000000000000000); (222222222222222 # 1000000000000000); (-22485417203087 # 1000000000000000)]
  ; [(267988333762469 # 1000000000000000); (480421111969383 # 1000000000000000); (138888888888889 # 1000000000000000)] ].
Definition gauss_b_3 : list Q := [(277777777777778 # 1000000000000000); (444444444444444 # 1000000000000000); (277777777777778 # 1000000000000000)].
Definition gauss_c_3 : list Q := [(112701665379258 # 1000000000000000); (5 # 10); (887298334620742 # 1000000000000000)].

(* rk_utils.py:595-628 *)
Definition gauss_A_4 : list (list Q) :=
  [ [(86963711284363 # 1000000000000000); (-26604180084999 # 1000000000000000); (12627462689405 # 1000000000000000); (-3555149685796 # 1000000000000000)]
  ; [(188118117499868 # 1000000000000000); (163036288715637 # 1000000000000000); (-27880428602471 # 1000000000000000); (6735500594538 # 1000000000000000)]
  ; [(167191921974189 # 1000000000000000); (353953006033745 # 1000000000000000); (163036288715636 # 1000000000000000); (-14190694931141 # 1000000000000000)]
  ; [(177482572254522 # 1000000000000000); (313445114741872 # 1000000000000000); (35267675751627 # 100000000000000); (86963711284364 # 1000000000000000)] ].
Definition gauss_b_4 : list Q := [(173927422568726 # 1000000000000000); (326072577431278 # 1000000000000000); (326072577431272 # 1000000000000000); (173927422568728 # 1000000000000000)].
Definition gauss_c_4 : list Q := [(69431844202974 # 1000000000000000); (330009478207572 # 1000000000000000); (669990521792428 # 1000000000000000); (930568155797026 # 1000000000000000)].

(* rk_utils.py:629-678 *)
Definition gauss_A_5 : list (list Q) :=
  [ [(59231721264047 # 1000000000000000); (-19570364359076 # 1000000000000000); (11254400818643 # 1000000000000000); (-5593793660812 # 1000000000000000); (1588112967866 # 1000000000000000)]
  ; [(128151005670045 # 1000000000000000); (119657167624842 # 1000000000000000); (-24592114619642 # 1000000000000000); (10318280670683 # 1000000000000000); (-276899439877 # 100000000000000)]
  ; [(113776288004224 # 1000000000000000); (260004651680642 # 1000000000000000); (142222222222221 # 1000000000000000); (-20690316430958 # 1000000000000000); (468715452387 # 100000000000000)]
  ; [(121232436926862 # 1000000000000000); (228996054578998 # 1000000000000000); (309036559064083 # 1000000000000000); (119657167624843 # 1000000000000000); (-968756314195 # 100000000000000)]
  ; [(116875329560226 # 1000000000000000); (244908128910493 # 1000000000000000); (273190043625792 # 1000000000000000); (258884699608764 # 1000000000000000); (59231721264048 # 1000000000000000)] ].
Definition gauss_b_5 : list Q := [(118463442528091 # 1000000000000000); (239314335249677 # 1000000000000000); (284444444444436 # 1000000000000000); (239314335249684 # 1000000000000000); (118463442528096 # 1000000000000000)].
Definition gauss_c_5 : list Q := [(46910077030668 # 1000000000000000); (230765344947159 # 1000000000000000); (5 # 10); (769234655052841 # 1000000000000000); (953089922969332 # 1000000000000000)].

(* rk_utils.py:679-743 *)
Definition gauss_A_6 : list (list Q) :=
  [ [(42831123094792 # 1000000000000000); (-14763725997197 # 1000000000000000); (9325050706477 # 1000000000000000); (-5668858049483 # 1000000000000000); (2854433315099 # 1000000000000000); (-812780171265 # 1000000000000000)]
  ; [(92673491430378 # 1000000000000000); (90190393262035 # 1000000000000000); (-2030010229324 # 100000000000000); (10363156240247 # 1000000000000000); (-4887192928038 # 1000000000000000); (1355561055485 # 1000000000000000)]
  ; [(82247922612843 # 1000000000000000); (196032162333246 # 1000000000000000); (116978483643174 # 1000000000000000); (-20482527745657 # 1000000000000000); (7989991899662 # 1000000000000000); (-2075625784866 # 1000000000000000)]
  ; [(8773787197445 # 100000000000000); (172390794624414 # 1000000000000000); (254439495032005 # 1000000000000000); (116978483643169 # 1000000000000000); (-15651375809174 # 1000000000000000); (3414323576741 # 1000000000000000)]
  ; [(84306685134102 # 1000000000000000); (185267979452117 # 1000000000000000); (223593811046108 # 1000000000000000); (254257069579578 # 1000000000000000); (90190393262038 # 1000000000000000); (-7011245240795 # 1000000000000000)]
  ; [(8647502636085 # 100000000000000); (177526353209002 # 1000000000000000); (239625825335853 # 1000000000000000); (224631916579851 # 1000000000000000); (195144512521278 # 1000000000000000); (4283112309479 # 100000000000000)] ].
Definition gauss_b_6 : list Q := [(85662246189586 # 1000000000000000); (180380786524101 # 1000000000000000); (23395696728635 # 100000000000000); (233956967286344 # 1000000000000000); (180380786524064 # 1000000000000000); (8566224618958 # 100000000000000)].
Definition gauss_c_6 : list Q := [(33765242898423 # 1000000000000000); (169395306766867 # 1000000000000000); (380690406958402 # 1000000000000000); (619309593041598 # 1000000000000000); (830604693233132 # 1000000000000000); (966234757101576 # 1000000000000000)].

(* rk_utils.py:744-825 *)
Definition gauss_A_7 : list (list Q) :=
  [ [(32371241542217 # 1000000000000000); (-11451017283184 # 1000000000000000); (7633203872423 # 1000000000000000); (-5133733563225 # 1000000000000000); (3175058773686 # 1000000000000000); (-1606819037046 # 1000000000000000); (458109523749 # 1000000000000000)]
  ; [(70043541378726 # 1000000000000000); (6992634787232 # 100000000000000); (-16590006578848 # 1000000000000000); (9349622783444 # 1000000000000000); (-5397091931896 # 1000000000000000); (264584386673 # 100000000000000); (-743850190172 # 1000000000000000)]
  ; [(62153935787349 # 1000000000000000); (15200552205783 # 100000000000000); (95457512626279 # 1000000000000000); (-18375244215452 # 1000000000000000); (8712562598475 # 1000000000000000); (-3953580158811 # 1000000000000000); (1076715615628 # 1000000000000000)]
  ; [(66332928617678 # 1000000000000000); (133595769223878 # 1000000000000000); (207701880765966 # 1000000000000000); (104489795918363 # 1000000000000000); (-1678685551341 # 100000000000000); (6256926520753 # 1000000000000000); (-159044553325 # 100000000000000)]
  ; [(63665767468791 # 1000000000000000); (14380627590343 # 100000000000000); (182202462654061 # 1000000000000000); (227354836052162 # 1000000000000000); (95457512626282 # 1000000000000000); (-1215282631321 # 100000000000000); (2588547297082 # 1000000000000000)]
  ; [(65486333274562 # 1000000000000000); (137206851877894 # 1000000000000000); (196312117184414 # 1000000000000000); (199629969053189 # 1000000000000000); (20750503183144 # 100000000000000); (69926347872274 # 1000000000000000); (-5301058294296 # 1000000000000000)]
  ; [(64284373560617 # 1000000000000000); (141459514781547 # 1000000000000000); (187739966478872 # 1000000000000000); (214113325399745 # 1000000000000000); (18328182138014 # 100000000000000); (151303713027731 # 1000000000000000); (32371241542209 # 1000000000000000)] ].
Definition gauss_b_7 : list Q := [(6474248308436 # 100000000000000); (139852695744546 # 1000000000000000); (190915025252464 # 1000000000000000); (208979591836627 # 1000000000000000); (190915025252578 # 1000000000000000); (139852695744521 # 1000000000000000); (64742483084429 # 1000000000000000)].
Definition gauss_c_7 : list Q := [(2544604382862 # 100000000000000); (129234407200303 # 1000000000000000); (297077424311301 # 1000000000000000); (5 # 10); (702922575688699 # 1000000000000000); (870765592799697 # 1000000000000000); (974553956171379 # 1000000000000000)].

(* rk_utils.py:826-926 *)
Definition gauss_A_8 : list (list Q) :=
  [ [(25307134072594 # 1000000000000000); (-910594330597 # 100000000000000); (628083114703 # 100000000000000); (-4483015613055 # 1000000000000000); (3078491368327 # 1000000000000000); (-1917675254637 # 1000000000000000); (972757664059 # 1000000000000000); (-277508327117 # 1000000000000000)]
  ; [(54759321767554 # 1000000000000000); (55595258613345 # 1000000000000000); (-13639796235782 # 1000000000000000); (8149708858361 # 1000000000000000); (-5215352089147 # 1000000000000000); (3139752985464 # 1000000000000000); (-1564934910949 # 1000000000000000); (442802304342 # 1000000000000000)]
  ; [(48587535998913 # 1000000000000000); (120859524997173 # 1000000000000000); (78426661469471 # 1000000000000000); (-15975103361879 # 1000000000000000); (8371732720226 # 1000000000000000); (-4643465862104 # 1000000000000000); (2225714775285 # 1000000000000000); (-618805695251 # 1000000000000000)]
  ; [(51865520970582 # 1000000000000000); (10619349014835 # 100000000000000); (170671134274548 # 1000000000000000); (90670945844584 # 1000000000000000); (-1602104132103 # 100000000000000); (7241206561225 # 1000000000000000); (-3197814310362 # 1000000000000000); (859236584265 # 1000000000000000)]
  ; [(49755031560927 # 1000000000000000); (114388331537048 # 1000000000000000); (149612116377682 # 1000000000000000); (197362933010172 # 1000000000000000); (90670945844598 # 1000000000000000); (-13817811335584 # 1000000000000000); (4997027078331 # 1000000000000000); (-1251252825391 # 1000000000000000)]
  ; [(51233073840447 # 1000000000000000); (1089648024514 # 10000000000000); (161496788800919 # 1000000000000000); (172970158968791 # 1000000000000000); (197316995050984 # 1000000000000000); (78426661469599 # 1000000000000000); (-9669007770489 # 1000000000000000); (2026732146281 # 1000000000000000)]
  ; [(50171465840885 # 1000000000000000); (112755452137506 # 1000000000000000); (153713569953126 # 1000000000000000); (186557243777861 # 1000000000000000); (173192182830976 # 1000000000000000); (17049311917501 # 100000000000000); (55595258613351 # 1000000000000000); (-4145053622349 # 1000000000000000)]
  ; [(50891776472231 # 1000000000000000); (110217759562534 # 1000000000000000); (1587709981928 # 10000000000000); (178263400320301 # 1000000000000000); (185824907302086 # 1000000000000000); (150572491792394 # 1000000000000000); (120296460532602 # 1000000000000000); (25307134072634 # 1000000000000000)] ].
Definition gauss_b_8 : list Q := [(5061426814526 # 100000000000000); (111190517226596 # 1000000000000000); (156853322938151 # 1000000000000000); (181341891688295 # 1000000000000000); (181341891689184 # 1000000000000000); (1568533229395 # 10000000000000); (111190517226614 # 1000000000000000); (50614268145245 # 1000000000000000)].
Definition gauss_c_8 : list Q := [(19855071751232 # 1000000000000000); (101666761293187 # 1000000000000000); (237233795041836 # 1000000000000000); (408282678752175 # 1000000000000000); (591717321247825 # 1000000000000000); (762766204958164 # 1000000000000000); (898333238706813 # 1000000000000000); (980144928248768 # 1000000000000000)].

(* rk_utils.py:927-1048 *)
Definition gauss_A_9 : list (list Q) :=
  [ [(20318597090394 # 1000000000000000); (-7397868566149 # 1000000000000000); (52220035921 # 10000000000000); (-3873451291745 # 1000000000000000); (283136945007 # 100000000000000); (-1962194188391 # 1000000000000000); (1226609788813 # 1000000000000000); (-622964091649 # 1000000000000000); (177778462745 # 1000000000000000)]
  ; [(43965527226529 # 1000000000000000); (45162040173714 # 1000000000000000); (-11335464012335 # 1000000000000000); (7034766801735 # 1000000000000000); (-4788276131017 # 1000000000000000); (3203360151985 # 1000000000000000); (-1964405739953 # 1000000000000000); (987172103666 # 1000000000000000); (-280274237641 # 1000000000000000)]
  ; [(39008653396285 # 1000000000000000); (98181511959848 # 1000000000000000); (65152674100733 # 1000000000000000); (-13770833986609 # 1000000000000000); (7664175624643 # 1000000000000000); (-4713586467799 # 1000000000000000); (2770828892759 # 1000000000000000); (-1361671983073 # 1000000000000000); (382532112918 # 1000000000000000)]
  ; [(41645087027326 # 1000000000000000); (86255472772503 # 1000000000000000); (141795216041138 # 1000000000000000); (7808676926 # 100000000000); (-14618957875909 # 1000000000000000); (7300428262182 # 1000000000000000); (-3932839915038 # 1000000000000000); (1852686200821 # 1000000000000000); (-510573474928 # 1000000000000000)]
  ; [(3994037286986 # 100000000000000); (92943372272725 # 1000000000000000); (12425711041074 # 100000000000000); (170000445255294 # 1000000000000000); (82559838750321 # 1000000000000000); (-13826906735218 # 1000000000000000); (6048237790678 # 1000000000000000); (-2619291925299 # 1000000000000000); (696821310955 # 1000000000000000)]
  ; [(41147767655826 # 1000000000000000); (88471394146737 # 1000000000000000); (134238188116171 # 1000000000000000); (148873110258109 # 1000000000000000); (17973863537631 # 100000000000000); (78086769260125 # 1000000000000000); (-11489867839813 # 1000000000000000); (4068607574951 # 1000000000000000); (-1007892846527 # 1000000000000000)]
  ; [(40254662068108 # 1000000000000000); (91685752330989 # 1000000000000000); (127534519308256 # 1000000000000000); (160887124988221 # 1000000000000000); (157455501875688 # 1000000000000000); (169944372506848 # 1000000000000000); (65152674100318 # 1000000000000000); (-7857431612422 # 1000000000000000); (1628540784537 # 1000000000000000)]
  ; [(40917468419025 # 1000000000000000); (89336908244377 # 1000000000000000); (132269753940591 # 1000000000000000); (152970178368378 # 1000000000000000); (169907953631991 # 1000000000000000); (149138771718299 # 1000000000000000); (141640812213154 # 1000000000000000); (45162040173409 # 1000000000000000); (-3328333045658 # 1000000000000000)]
  ; [(40459415718829 # 1000000000000000); (90947044440327 # 1000000000000000); (129078738411408 # 1000000000000000); (158135732709525 # 1000000000000000); (162288308049938 # 1000000000000000); (16004698981169 # 100000000000000); (125083344608356 # 1000000000000000); (97721948913431 # 1000000000000000); (20318597090466 # 1000000000000000)] ].
Definition gauss_b_9 : list Q := [(40637194181613 # 1000000000000000); (90324080348182 # 1000000000000000); (130305348199727 # 1000000000000000); (156173538521216 # 1000000000000000); (165119677500115 # 1000000000000000); (156173538521216 # 1000000000000000); (130305348200636 # 1000000000000000); (903240803475 # 10000000000000); (40637194181045 # 1000000000000000)].
Definition gauss_c_9 : list Q := [(15919880246187 # 1000000000000000); (81984446336682 # 1000000000000000); (193314283649705 # 1000000000000000); (337873288298095 # 1000000000000000); (5 # 10); (662126711701905 # 1000000000000000); (806685716350295 # 1000000000000000); (918015553663318 # 1000000000000000); (984080119753813 # 1000000000000000)].
