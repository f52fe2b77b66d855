(** Generated by tools/gen_data.py from /repo/src/legendre/bogaert/data.rs.
    A pair (m, e) is the decimal literal m * 10^e. *)
From Coq Require Import ZArith List.
Import ListNotations.
Local Open Scope Z_scope.

(** data.rs:6 *)
Definition JZ : list (Z * Z) := [(2404825557695773, (-15)); (5520078110286311, (-15)); (8653727912911013, (-15)); (11791534439014281, (-15)); (14930917708487787, (-15)); (18071063967910924, (-15)); (2121163662987926, (-14)); (24352471530749302, (-15)); (27493479132040253, (-15)); (30634606468431976, (-15)); (3377582021357357, (-14)); (36917098353664045, (-15)); (4005842576462824, (-14)); (4319979171317673, (-14)); (46341188371661815, (-15)); (49482609897397815, (-15)); (52624051841115, (-12)); (5576551075501998, (-14)); (5890698392608094, (-14)); (62048469190227166, (-15))].
(** data.rs:8 *)
Definition J1 : list (Z * Z) := [(2695141239419169, (-16)); (11578013858220369, (-17)); (7368635113640822, (-17)); (5403757319811628, (-17)); (4266142901724309, (-17)); (352421034909961, (-16)); (30021070103054673, (-18)); (2614739149530809, (-17)); (23159121824691393, (-18)); (2078382912226786, (-17)); (1885045066931767, (-17)); (17246157569665008, (-18)); (158935181059236, (-16)); (1473762609647219, (-17)); (13738465145387117, (-18)); (12866181737615133, (-18)); (12098051548626797, (-18)); (11416471224491609, (-18)); (10807592791180204, (-18)); (10260372926280762, (-18)); (9765897139791051, (-18))].
(** data.rs:12 *)
Definition EVEN_THETA_ZERO_1 : list (Z * Z) := [(9553166181245093, (-16))].
(** data.rs:13 *)
Definition EVEN_THETA_ZERO_2 : list (Z * Z) := [(12238995864703726, (-16)); (533295680249127, (-15))].
(** data.rs:14 *)
Definition EVEN_THETA_ZERO_3 : list (Z * Z) := [(13298526123881103, (-16)); (8483666264874876, (-16)); (36960665194482895, (-17))].
(** data.rs:15 *)
Definition EVEN_THETA_ZERO_4 : list (Z * Z) := [(13863170788921313, (-16)); (10174555394901534, (-16)); (6490365804607796, (-16)); (28275706359379676, (-17))].
(** data.rs:16 *)
Definition EVEN_THETA_ZERO_5 : list (Z * Z) := [(1421366498439525, (-15)); (11225393276317095, (-16)); (8238386589997556, (-16)); (5255196555285001, (-16)); (22894429884702602, (-17))].
(** data.rs:17 *)
Definition EVEN_THETA_ZERO_6 : list (Z * Z) := [(14452332384714401, (-16)); (11941203759477066, (-16)); (9430552870605736, (-16)); (692107698881841, (-15)); (44148708148933175, (-17)); (19233467930466722, (-17))].
(** data.rs:18 *)
Definition EVEN_THETA_ZERO_7 : list (Z * Z) := [(1462529992921482, (-15)); (12460035867766777, (-16)); (10294985925251368, (-16)); (8130407055389455, (-16)); (5966877608172734, (-16)); (3806189306666775, (-16)); (1658171411523664, (-16))].
(** data.rs:19 *)
Definition EVEN_THETA_ZERO_8 : list (Z * Z) := [(14756402808081943, (-16)); (12853314443229653, (-16)); (10950334018034444, (-16)); (9047575323895165, (-16)); (7145252532340252, (-16)); (5243866409035941, (-16)); (3344986386876292, (-16)); (14572468200367383, (-17))].
(** data.rs:20 *)
Definition EVEN_THETA_ZERO_9 : list (Z * Z) := [(1485919440392653, (-15)); (13161674947180226, (-16)); (11464214810566422, (-16)); (9766871104439833, (-16)); (8069738930788195, (-16)); (6373005058706191, (-16)); (4677113145328286, (-16)); (2983460782092325, (-16)); (12997473641967683, (-17))].
(** data.rs:21 *)
Definition EVEN_THETA_ZERO_10 : list (Z * Z) := [(14941949143103996, (-16)); (13409931785899551, (-16)); (11877949266340988, (-16)); (10346032975901043, (-16)); (8814230742890136, (-16)); (7282625848696073, (-16)); (5751385026314285, (-16)); (4220907301111166, (-16)); (2692452880289302, (-16)); (11729692770595614, (-17))].
(** data.rs:22 *)
Definition EVEN_THETA_ZERO_11 : list (Z * Z) := [(1501000399130816, (-15)); (13614092256643722, (-16)); (12218202089903598, (-16)); (10822351981118368, (-16)); (9426568273796608, (-16)); (8030892957063359, (-16)); (6635400754448063, (-16)); (5240242709487282, (-16)); (3845781703583911, (-16)); (24531653899836128, (-17)); (106872335798526, (-15))].
(** data.rs:23 *)
Definition EVEN_THETA_ZERO_12 : list (Z * Z) := [(1506695545558101, (-15)); (13784944275062192, (-16)); (1250294703417273, (-15)); (11220975232672508, (-16)); (9939044422989455, (-16)); (8657177770401081, (-16)); (7375413075437536, (-16)); (6093818382449566, (-16)); (48125319513136866, (-17)); (3531886675690781, (-16)); (22529362263530758, (-17)); (9814932949793685, (-17))].
(** data.rs:24 *)
Definition EVEN_THETA_ZERO_13 : list (Z * Z) := [(15115315467032893, (-16)); (1393002286179808, (-15)); (1274473959424494, (-15)); (1155947313793812, (-15)); (10374233190774391, (-16)); (9189033445598993, (-16)); (8003894803353296, (-16)); (6818851814129299, (-16)); (5633967073169294, (-16)); (44493681521191303, (-17)); (32653626111653583, (-17)); (20829244255984664, (-17)); (9074274842993199, (-17))].
(** data.rs:25 *)
Definition EVEN_THETA_ZERO_14 : list (Z * Z) := [(1515689149557281, (-15)); (14054750030623486, (-16)); (1295261501292316, (-15)); (11850491478890215, (-16)); (10748385749178693, (-16)); (9646306371285441, (-16)); (8544265718392254, (-16)); (7442282945111358, (-16)); (6340389954584301, (-16)); (523864476882568, (-15)); (4137165857369638, (-16)); (3036239070914334, (-16)); (19367699299473762, (-17)); (8437551461511597, (-17))].
(** data.rs:26 *)
Definition EVEN_THETA_ZERO_15 : list (Z * Z) := [(15193017292745266, (-16)); (14163126822307417, (-16)); (13133240920457947, (-16)); (12103363086244765, (-16)); (11073497592284591, (-16)); (1004365001539081, (-15)); (9013828087667156, (-16)); (7984043170121236, (-16)); (6954313000299367, (-16)); (5924667257887386, (-16)); (489516005089697, (-15)); (3865901987860505, (-16)); (2837160095793467, (-16)); (1809780449917272, (-16)); (7884320726554946, (-17))].
(** data.rs:27 *)
Definition EVEN_THETA_ZERO_16 : list (Z * Z) := [(15224698526415292, (-16)); (14258170119638254, (-16)); (13291645023910807, (-16)); (12325125734163629, (-16)); (11358615228402937, (-16)); (10392117280689517, (-16)); (9425636940046778, (-16)); (8459181315837994, (-16)); (7492760951181414, (-16)); (6526392394594561, (-16)); (5560103418005303, (-16)); (45939447307620956, (-17)); (3628020075350028, (-16)); (266257999472386, (-15)); (169841845428215, (-15)); (739917130997096, (-16))].
(** data.rs:28 *)
Definition EVEN_THETA_ZERO_17 : list (Z * Z) := [(15252707806171943, (-16)); (14342197680454096, (-16)); (1343169000217436, (-15)); (12521186590624445, (-16)); (11610689576291577, (-16)); (1070020159291475, (-15)); (9789726059789103, (-16)); (887926762398812, (-15)); (7968832893748415, (-16)); (705843172750984, (-15)); (6148079652926101, (-16)); (523780277969473, (-15)); (43276488324482343, (-17)); (34177155002667176, (-17)); (2508238767288224, (-16)); (15999665426683277, (-17)); (6970264809814095, (-17))].
(** data.rs:29 *)
Definition EVEN_THETA_ZERO_18 : list (Z * Z) := [(15277648492617404, (-16)); (14417019543490648, (-16)); (1355639243522655, (-15)); (12695768520637685, (-16)); (11835149358515507, (-16)); (10974536835558126, (-16)); (1011393333949027, (-15)); (9253342019812867, (-16)); (8392767201322476, (-16)); (7532215073977623, (-16)); (6671694908788198, (-16)); (5811221342350705, (-16)); (49508190189930745, (-17)); (40905330179720073, (-17)); (3230455648729988, (-16)); (2370809940997937, (-16)); (1512302802537625, (-16)); (6588357082399222, (-17))].
(** data.rs:30 *)
Definition EVEN_THETA_ZERO_19 : list (Z * Z) := [(15299998632232066, (-16)); (14484069821248418, (-16)); (13668142416514888, (-16)); (12852217441437317, (-16)); (12036296059049527, (-16)); (1122037965173752, (-15)); (10404469931076235, (-16)); (9588569097730896, (-16)); (8772680085516152, (-16)); (7956806951062013, (-16)); (714095552603166, (-15)); (6325134568448222, (-16)); (5509357927460005, (-16)); (46936489434754225, (-17)); (38780503330152016, (-17)); (3062649591511897, (-16)); (22476581460336864, (-17)); (14337461678188496, (-17)); (6246124541276674, (-17))].
(** data.rs:31 *)
Definition EVEN_THETA_ZERO_20 : list (Z * Z) := [(15320141882797629, (-16)); (14544499469772685, (-16)); (13768858146014826, (-16)); (12993218697648765, (-16)); (12217582007474752, (-16)); (11441949108462475, (-16)); (10666321255529398, (-16)); (9890700026972187, (-16)); (9115087474225932, (-16)); (8339486352158799, (-16)); (7563900488174808, (-16)); (6788335401193977, (-16)); (6012799395312685, (-16)); (5237305617022756, (-16)); (44618762375418103, (-17)); (36865518491195565, (-17)); (2911415613085159, (-16)); (21366685036946806, (-17)); (1362947587312225, (-16)); (5937690028966412, (-17))].
(** data.rs:32 *)
Definition EVEN_THETA_ZERO_21 : list (Z * Z) := [(15338389711938643, (-16)); (1459924288056445, (-15)); (1386009690354997, (-15)); (13120952393052767, (-16)); (1238181002944536, (-15)); (11642670598037967, (-16)); (10903535037218977, (-16)); (10164404504720674, (-16)); (9425280472651469, (-16)); (8686164868955468, (-16)); (7947060295895204, (-16)); (7207970381018823, (-16)); (6468900366403721, (-16)); (5729858150363659, (-16)); (4990856247464946, (-16)); (4251915773724379, (-16)); (35130754004859815, (-17)); (2774414365914336, (-16)); (20361241779257935, (-17)); (12988119160615158, (-17)); (56582825346602104, (-18))].
(** data.rs:33 *)
Definition EVEN_THETA_ZERO_22 : list (Z * Z) := [(15354997612640773, (-16)); (14649066524945216, (-16)); (13943136115001094, (-16)); (13237206865385243, (-16)); (1253127930763391, (-15)); (118253540479698, (-14)); (11119431800338686, (-16)); (10413513430836743, (-16)); (9707600019805773, (-16)); (900169295166751, (-15)); (8295794049297956, (-16)); (7589905782114329, (-16)); (6884031600807736, (-16)); (6178176499732537, (-16)); (5472348011493452, (-16)); (476655807862476, (-15)); (40608268594776203, (-17)); (3355191279517094, (-16)); (26497270084854657, (-17)); (19446169407381564, (-17)); (12404408660434993, (-17)); (54039886576138715, (-18))].
(** data.rs:34 *)
Definition EVEN_THETA_ZERO_23 : list (Z * Z) := [(153701771360881, (-14)); (14694605051242267, (-16)); (14019033509623646, (-16)); (13343462895905054, (-16)); (12667893630444, (-13)); (1199232618763735, (-15)); (11316761119061056, (-16)); (10641199083947026, (-16)); (9965640890815035, (-16)); (9290087556203499, (-16)); (8614540390091103, (-16)); (7939001124053586, (-16)); (7263472110048245, (-16)); (6587956640463587, (-16)); (5912459486086227, (-16)); (5236987847717838, (-16)); (4561553147193392, (-16)); (3886174669444433, (-16)); (32108877458964785, (-17)); (2535764786314617, (-16)); (18609808137763426, (-17)); (11870906769241313, (-17)); (5171568198966902, (-17))].
(** data.rs:35 *)
Definition EVEN_THETA_ZERO_24 : list (Z * Z) := [(15384104948581905, (-16)); (1473638845472166, (-15)); (14088672400392228, (-16)); (13440957095335087, (-16)); (12793242875667796, (-16)); (1214553011719529, (-15)); (11497819251917185, (-16)); (10850110789366658, (-16)); (10202405345167043, (-16)); (9554703680422405, (-16)); (8907006757608307, (-16)); (8259315822134856, (-16)); (7611632524946588, (-16)); (6963959112887658, (-16)); (6316298735371144, (-16)); (5668655960010827, (-16)); (5021037684870694, (-16)); (43734548555222963, (-17)); (37259259568338965, (-17)); (3078484858841617, (-16)); (24312009812649993, (-17)); (17842421260435368, (-17)); (11381402585148331, (-17)); (4958315373802413, (-17))].
(** data.rs:36 *)
Definition EVEN_THETA_ZERO_25 : list (Z * Z) := [(15396929737167084, (-16)); (14774862793945023, (-16)); (14152796209444103, (-16)); (13530730235379427, (-16)); (1290866514321281, (-15)); (12286601233950796, (-16)); (11664538850116586, (-16)); (1104247839096738, (-15)); (10420420332485432, (-16)); (9798365254403235, (-16)); (9176313877712592, (-16)); (8554267118081827, (-16)); (7932226163976801, (-16)); (731019259423156, (-15)); (6688168560730805, (-16)); (6066157082814543, (-16)); (5444162542389049, (-16)); (4822191559963931, (-16)); (42002546436369864, (-17)); (35783695425368595, (-17)); (29565687819226055, (-17)); (23349190290832927, (-17)); (17135814374973973, (-17)); (10930669023358229, (-17)); (4761952998197036, (-17))].
(** data.rs:37 *)
Definition EVEN_THETA_ZERO_26 : list (Z * Z) := [(15408777537400804, (-16)); (14810406173737414, (-16)); (14212035105186567, (-16)); (13613664538043229, (-16)); (13015294693560444, (-16)); (12416925815259356, (-16)); (11818558177742646, (-16)); (11220192097727504, (-16)); (10621827948298797, (-16)); (10023466177830074, (-16)); (9425107335729934, (-16)); (8826752108319278, (-16)); (8228401370047382, (-16)); (7630056258499811, (-16)); (7031718287376428, (-16)); (6433389522119554, (-16)); (5835072863023427, (-16)); (5236772521416453, (-16)); (4638494862268433, (-16)); (404024999030891, (-15)); (344205497568011, (-15)); (2843941101955779, (-16)); (2245972494281052, (-16)); (164830416474705, (-15)); (10514275441466, (-14)); (4580550859172368, (-17))].
(** data.rs:38 *)
Definition EVEN_THETA_ZERO_27 : list (Z * Z) := [(15419755888426219, (-16)); (14843341210185566, (-16)); (1426692677652359, (-15)); (13690512757830715, (-16)); (1311409933595115, (-15)); (1253768670970438, (-15)); (11961275101462263, (-16)); (11384864765269125, (-16)); (1080845599717322, (-15)); (10232049148717228, (-16)); (9655644644970043, (-16)); (9079243009168823, (-16)); (8502844897148264, (-16)); (7926451146568313, (-16)); (7350062849078711, (-16)); (6773681459074923, (-16)); (6197308962817025, (-16)); (5620948151095423, (-16)); (5044603077892199, (-16)); (4468279872027509, (-16)); (3891988265038339, (-16)); (33157446984315053, (-17)); (2739579305700526, (-16)); (2163553856859194, (-16)); (15878176737494804, (-17)); (10128441516948394, (-17)); (4412462056235422, (-17))].
(** data.rs:39 *)
Definition EVEN_THETA_ZERO_28 : list (Z * Z) := [(1542995710582549, (-15)); (14873944849047467, (-16)); (14317932796356694, (-16)); (13761921089502394, (-16)); (13205909879092226, (-16)); (12649899328810315, (-16)); (1209388962038684, (-15)); (11537880959656481, (-16)); (10981873584160329, (-16)); (1042586777292403, (-15)); (9869863859317283, (-16)); (9313862248321055, (-16)); (8757863440192766, (-16)); (8201868063589761, (-16)); (7645876922981546, (-16)); (708989106819845, (-15)); (6533911899285832, (-16)); (5977941329592258, (-16)); (542198204874554, (-15)); (486603796504589, (-15)); (4310114988353694, (-16)); (3754222503860499, (-16)); (3198376369331602, (-16)); (26426056499587475, (-17)); (2086969927688101, (-16)); (1531613237261629, (-16)); (9769922156300583, (-17)); (42562728619072426, (-18))].
(** data.rs:40 *)
Definition EVEN_THETA_ZERO_29 : list (Z * Z) := [(15439460883311016, (-16)); (14902456170724327, (-16)); (14365451629521713, (-16)); (13828447378412756, (-16)); (13291443543021895, (-16)); (12754440259144428, (-16)); (12217437676544565, (-16)); (11680435963532445, (-16)); (11143435312634573, (-16)); (10606435947787871, (-16)); (10069438133661848, (-16)); (9532442187977768, (-16)); (8995448498101764, (-16)); (8458457543830885, (-16)); (7921469929325243, (-16)); (7384486428849507, (-16)); (6847508053901545, (-16)); (6310536154445759, (-16)); (5773572576394624, (-16)); (5236619915567429, (-16)); (46996819449358573, (-17)); (4162764370726534, (-16)); (362587625578986, (-15)); (3089032914359211, (-16)); (25522624166435315, (-17)); (20156223063849718, (-17)); (1479251692966708, (-16)); (943591601028074, (-16)); (4110762866287674, (-17))].
(** data.rs:41 *)
Definition EVEN_THETA_ZERO_30 : list (Z * Z) := [(15448336378516654, (-16)); (14929082647563883, (-16)); (14409829061386508, (-16)); (13890575720015803, (-16)); (1337132272892735, (-15)); (12852070201578767, (-16)); (12332818262342984, (-16)); (11813567050005966, (-16)); (11294316722049589, (-16)); (10775067460017114, (-16)); (10255819476372292, (-16)); (9736573023432582, (-16)); (9217328405213548, (-16)); (8698085993416728, (-16)); (8178846249414538, (-16)); (7659609755086193, (-16)); (7140377257012462, (-16)); (6621149731355526, (-16)); (6101928481720243, (-16)); (5582715291407655, (-16)); (5063512668959282, (-16)); (4544324261262307, (-16)); (402515558464265, (-15)); (3506015401168134, (-16)); (29869185177035096, (-17)); (24678920754694572, (-17)); (1948991714956708, (-16)); (1430351946011564, (-16)); (9123992133264713, (-17)); (39748730261265915, (-18))].
(** data.rs:42 *)
Definition EVEN_THETA_ZERO_31 : list (Z * Z) := [(15456643898416857, (-16)); (14954005200068685, (-16)); (14451366624696333, (-16)); (1394872825707861, (-15)); (13446090186315316, (-16)); (12943452507822841, (-16)); (12440815325621664, (-16)); (11938178755037603, (-16)); (1143554292597403, (-15)); (1093290798696378, (-15)); (10430274110284918, (-16)); (9927641498535134, (-16)); (9425010393224361, (-16)); (8922381086194002, (-16)); (8419753935054036, (-16)); (7917129384431113, (-16)); (7414507995789215, (-16)); (691189049018572, (-15)); (6409277811053988, (-16)); (5906671218914769, (-16)); (5404072438741682, (-16)); (4901483897634233, (-16)); (4398909124691514, (-16)); (38963534586998183, (-17)); (3393825380385225, (-16)); (289133922189195, (-15)); (23889212550717798, (-17)); (18866253391247775, (-17)); (13845816788701817, (-17)); (8832030722827103, (-17)); (3847679847963677, (-17))].
(** data.rs:43 *)
Definition EVEN_THETA_ZERO_32 : list (Z * Z) := [(15464436271252655, (-16)); (14977382312639094, (-16)); (14490328459026314, (-16)); (14003274782653912, (-16)); (1351622135921669, (-15)); (13029168269447025, (-16)); (12542115600914836, (-16)); (1205506345013417, (-15)); (11568011925089807, (-16)); (11080961148332495, (-16)); (10593911260842166, (-16)); (1010686242693214, (-15)); (9619814840575053, (-16)); (9132768733691264, (-16)); (8645724387181842, (-16)); (8158682145859558, (-16)); (7671642439014559, (-16)); (718460580929007, (-15)); (6697572954095121, (-16)); (6210544786425143, (-16)); (5723522526623284, (-16)); (523650784516478, (-15)); (4749503092950064, (-16)); (4262511688770346, (-16)); (3775538805043669, (-16)); (3288592658750794, (-16)); (2801687136893754, (-16)); (23148476959988526, (-17)); (18281265245634634, (-17)); (13416497894680912, (-17)); (8558174883654483, (-17)); (3728374374031613, (-17))].
(** data.rs:44 *)
Definition EVEN_THETA_ZERO_33 : list (Z * Z) := [(15471759970946148, (-16)); (14999353406791816, (-16)); (14526946932727063, (-16)); (1405454061061769, (-15)); (13582134505111843, (-16)); (13109728684904443, (-16)); (12637323224165378, (-16)); (12164918204197241, (-16)); (11692513715405402, (-16)); (1122010985968754, (-15)); (10747706753384534, (-16)); (10275304530984315, (-16)); (9802903349842006, (-16)); (9330503396284544, (-16)); (8858104893623263, (-16)); (8385708112832335, (-16)); (7913313387011139, (-16)); (7440921131314511, (-16)); (6968531870945337, (-16)); (6496146281309019, (-16)); (6023765246993705, (-16)); (555138995076209, (-15)); (5079022012032895, (-16)); (4606663710240283, (-16)); (41343183606396705, (-17)); (3661990979414349, (-16)); (31896895357813787, (-17)); (2717427498485402, (-16)); (22452295578717027, (-17)); (17731463323239693, (-17)); (13013001937547808, (-17)); (830079109507707, (-16)); (36162449599003894, (-18))].
(** data.rs:45 *)
Definition EVEN_THETA_ZERO_34 : list (Z * Z) := [(15478656044577777, (-16)); (15020041623573572, (-16)); (14561427280219037, (-16)); (14102813067746847, (-16)); (13644199041644982, (-16)); (1318558526067441, (-15)); (12726971788011152, (-16)); (12268358692561776, (-16)); (1180974605051351, (-15)); (1135113394719709, (-15)); (10892522479364666, (-16)); (10433911758019112, (-16)); (9975301911979639, (-16)); (9516693092438447, (-16)); (9058085478865098, (-16)); (8599479286766251, (-16)); (8140874778035997, (-16)); (7682272274981821, (-16)); (7223672179660644, (-16)); (676507500104338, (-15)); (6306481393987597, (-16)); (5847892216487433, (-16)); (5389308616059791, (-16)); (49307321641761326, (-17)); (4472165073094733, (-16)); (4013610560689044, (-16)); (35550734961307684, (-17)); (3096561615434305, (-16)); (26380879935977936, (-17)); (2179676599607749, (-16)); (17213765734961659, (-17)); (12633067138814497, (-17)); (8058436603519718, (-17)); (3510663068970053, (-17))].
(** data.rs:46 *)
Definition EVEN_THETA_ZERO_35 : list (Z * Z) := [(15485160882025641, (-16)); (1503955613246578, (-15)); (14593951450121903, (-16)); (14148346881002227, (-16)); (13702742472954414, (-16)); (13257138276490215, (-16)); (12811534345705362, (-16)); (1236593073933169, (-15)); (1192032752196711, (-15)); (11474724765541084, (-16)); (11029122551090276, (-16)); (10583520970942633, (-16)); (10137920131441531, (-16)); (9692320156388929, (-16)); (9246721191454418, (-16)); (8801123409896301, (-16)); (8355527020087518, (-16)); (7909932275560464, (-16)); (7464339488624694, (-16)); (7018749049145359, (-16)); (657316145092918, (-15)); (6127577329584495, (-16)); (5681997518140861, (-16)); (5236423130979095, (-16)); (4790855694444513, (-16)); (4345297357523596, (-16)); (3899751246318783, (-16)); (3454222091410985, (-16)); (3008717408917774, (-16)); (2563249902500919, (-16)); (2117842860782108, (-16)); (1672544029381416, (-16)); (12274688364193373, (-17)); (7829832364814668, (-17)); (341107148476634, (-16))].
(** data.rs:47 *)
Definition EVEN_THETA_ZERO_36 : list (Z * Z) := [(1549130685823946, (-15)); (15057994058196642, (-16)); (14624681316574704, (-16)); (14191368673304614, (-16)); (1375805616982639, (-15)); (13324743849761553, (-16)); (12891431759659129, (-16)); (12458119949843272, (-16)); (12024808475396904, (-16)); (11591497397324357, (-16)); (11158186783948079, (-16)); (10724876712611116, (-16)); (10291567271780255, (-16)); (9858258563677261, (-16)); (9424950707611702, (-16)); (8991643844255134, (-16)); (8558338141192846, (-16)); (8125033800232146, (-16)); (7691731067161328, (-16)); (7258430244984031, (-16)); (6825131712172896, (-16)); (6391835948321686, (-16)); (5958543570955633, (-16)); (5525255389612024, (-16)); (5091972487450747, (-16)); (4658696348260689, (-16)); (42254290613213136, (-17)); (37921736660959066, (-17)); (33589347622850085, (-17)); (29257196583016254, (-17)); (24925407070151795, (-17)); (20594205542731864, (-17)); (1626405628266887, (-16)); (11936081726228538, (-17)); (7613840464754681, (-17)); (3316974474186059, (-17))].
(** data.rs:48 *)
Definition EVEN_THETA_ZERO_37 : list (Z * Z) := [(15497122872078828, (-16)); (15075442097248626, (-16)); (14653761373390157, (-16)); (14232080735297028, (-16)); (13810400219007652, (-16)); (13388719862356913, (-16)); (12967039705584986, (-16)); (12545359792024913, (-16)); (1212368016889501, (-15)); (11702000888228534, (-16)); (11280322007981618, (-16)); (10858643593372366, (-16)); (10436965718520375, (-16)); (10015288468478538, (-16)); (9593611941780779, (-16)); (9171936253674232, (-16)); (8750261540268988, (-16)); (8328587963932301, (-16)); (7906915720393252, (-16)); (7485245048233193, (-16)); (7063576241759075, (-16)); (664190966876197, (-15)); (6220245795476037, (-16)); (5798585222396646, (-16)); (5376928736905555, (-16)); (49552773926873667, (-17)); (4533632633323484, (-16)); (4111996491651494, (-16)); (3690371925202636, (-16)); (3268763409876008, (-16)); (28471780575806743, (-17)); (2425627889274157, (-16)); (2004134942584602, (-16)); (15827443990496567, (-17)); (11615654888185546, (-17)); (7409445176394482, (-17)); (3227929535095246, (-17))].
(** data.rs:49 *)
Definition EVEN_THETA_ZERO_38 : list (Z * Z) := [(15502634800641604, (-16)); (15091977880838081, (-16)); (14681321005668757, (-16)); (14270664205564185, (-16)); (1386000751198713, (-15)); (13449350957887651, (-16)); (13038694578202985, (-16)); (1262803841041883, (-15)); (12217382495212128, (-16)); (11806726877199911, (-16)); (1139607160582508, (-15)); (1098541673641859, (-15)); (10574762331489078, (-16)); (10164108462307009, (-16)); (9753455210872528, (-16)); (9342802672387127, (-16)); (8932150958393124, (-16)); (8521500200807685, (-16)); (8110850557169691, (-16)); (7700202217553082, (-16)); (7289555413804263, (-16)); (687891043207451, (-15)); (646826763011035, (-15)); (6057627461556542, (-16)); (5646990510834698, (-16)); (5236357544389876, (-16)); (48257295880282974, (-17)); (4415108047277878, (-16)); (4004494901533595, (-16)); (3593893030723592, (-16)); (3183306793460978, (-16)); (27727431154653526, (-17)); (2362213703174824, (-16)); (19517400178361022, (-17)); (15413660595512307, (-17)); (1131198202589879, (-16)); (721573698859389, (-16)); (3143540438351455, (-17))].
(** data.rs:50 *)
Definition EVEN_THETA_ZERO_39 : list (Z * Z) := [(15507865884151524, (-16)); (15107671129573974, (-16)); (1470747641421583, (-15)); (14307281764785929, (-16)); (1390708720885325, (-15)); (13506892775224346, (-16)); (13106698494356046, (-16)); (12706504398816483, (-16)); (12306310523809816, (-16)); (1190611690778359, (-15)); (11505923593142144, (-16)); (1110573062709577, (-15)); (10705538062683633, (-16)); (10305345960020034, (-16)); (9905154387828985, (-16)); (9504963425353942, (-16)); (9104773164759499, (-16)); (8704583714184727, (-16)); (8304395201669024, (-16)); (790420778026052, (-15)); (7504021634749075, (-16)); (7103836990664584, (-16)); (6703654126486746, (-16)); (6303473390491956, (-16)); (5903295224434432, (-16)); (5503120197533818, (-16)); (5102949056413983, (-16)); (47027828004684147, (-17)); (4302622799152492, (-16)); (3902470981180917, (-16)); (35023301528697365, (-17)); (31022045615569765, (-17)); (2702100956292792, (-16)); (23020307450533073, (-17)); (1902014842102915, (-16)); (15020961263362212, (-17)); (11023782616908209, (-17)); (7031899075931525, (-17)); (30634513334112264, (-18))].
(** data.rs:51 *)
Definition EVEN_THETA_ZERO_40 : list (Z * Z) := [(15512837053479682, (-16)); (1512258463601911, (-15)); (14732332253132847, (-16)); (14342079928341862, (-16)); (13951827685887233, (-16)); (13561575551044742, (-16)); (13171323550467458, (-16)); (127810717125665, (-14)); (12390820067942032, (-16)); (12000568649879044, (-16)); (11610317494925886, (-16)); (11220066643578117, (-16)); (10829816141096273, (-16)); (10439566038494477, (-16)); (100493163937479, (-14)); (965906727328246, (-15)); (9268818753831083, (-16)); (8878570924770502, (-16)); (8488323891094103, (-16)); (8098077777236123, (-16)); (770783273204953, (-15)); (7317588935368493, (-16)); (6927346606780251, (-16)); (6537106017528971, (-16)); (6146867506941757, (-16)); (5756631505519365, (-16)); (5366398568077528, (-16)); (49761694224433445, (-17)); (4585945042946725, (-16)); (4195726764797194, (-16)); (38055164685795334, (-17)); (3415316890685594, (-16)); (3025132172735989, (-16)); (26349688959170087, (-17)); (22448381845988236, (-17)); (18547604332670947, (-17)); (14647774553440684, (-17)); (10749903391307948, (-17)); (6857195785426973, (-17)); (29873417325619066, (-18))].
(** data.rs:52 *)
Definition EVEN_THETA_ZERO_41 : list (Z * Z) := [(15517567210033154, (-16)); (15136775104353548, (-16)); (1475598302924815, (-15)); (14375191005496541, (-16)); (1399439905448387, (-15)); (13613607198464304, (-16)); (13232815460846825, (-16)); (12852023866511415, (-16)); (12471232442165068, (-16)); (12090441216748944, (-16)); (11709650221910584, (-16)); (11328859492558414, (-16)); (10948069067520307, (-16)); (10567278990333935, (-16)); (10186489310204787, (-16)); (9805700083178549, (-16)); (9424911373589552, (-16)); (9044123255867554, (-16)); (8663335816813894, (-16)); (8282549158498738, (-16)); (7901763401989443, (-16)); (7520978692204963, (-16)); (714019520431673, (-15)); (6759413152305657, (-16)); (6378632800575392, (-16)); (5997854479978337, (-16)); (5617078610344953, (-16)); (5236305732820187, (-16)); (4855536557378013, (-16)); (44747720345300684, (-17)); (4094013466928585, (-16)); (3713262689388439, (-16)); (3332522371792479, (-16)); (2951796555193184, (-16)); (25710916610742274, (-17)); (21904185439717355, (-17)); (18097971038143018, (-17)); (1429268140230164, (-16)); (10489302907803234, (-17)); (669096279784365, (-16)); (29149222246859008, (-18))].
(** data.rs:53 *)
Definition EVEN_THETA_ZERO_42 : list (Z * Z) := [(15522073465901363, (-16)); (15150293870811842, (-16)); (1477851430283928, (-15)); (14406734780396997, (-16)); (14034955322409692, (-16)); (1366317594853509, (-15)); (1329139667940348, (-15)); (12919617536881627, (-16)); (12547838544368384, (-16)); (1217605972713103, (-15)); (1180428111269301, (-15)); (11432502731286491, (-16)); (11060724616386344, (-16)); (1068894680534664, (-15)); (10317169340166648, (-16)); (9945392268421176, (-16)); (9573615644400829, (-16)); (9201839530522289, (-16)); (8830063999088903, (-16)); (8458289134509915, (-16)); (8086515036126425, (-16)); (7714741821849086, (-16)); (7342969632895449, (-16)); (6971198640037407, (-16)); (6599429051953913, (-16)); (6227661126567801, (-16)); (5855895186691062, (-16)); (5484131642019636, (-16)); (511237102070331, (-15)); (4740614015734593, (-16)); (43688615549591514, (-17)); (3997114910036376, (-16)); (36253758721997775, (-17)); (3253647047992267, (-16)); (2881932382678453, (-16)); (2510238145617969, (-16)); (213857493430392, (-15)); (17669621775357833, (-17)); (13954397091540102, (-17)); (10241038320052219, (-17)); (6532598686141261, (-17)); (28459307976942915, (-18))].
(** data.rs:54 *)
Definition EVEN_THETA_ZERO_43 : list (Z * Z) := [(1552637135069156, (-15)); (15163187524187982, (-16)); (14800003721802917, (-16)); (14436819959899918, (-16)); (14073636255276127, (-16)); (1371045262534953, (-15)); (13347269088360658, (-16)); (12984085663593867, (-16)); (12620902371624119, (-16)); (12257719234596254, (-16)); (11894536276545231, (-16)); (1153135352376772, (-15)); (11168171005257859, (-16)); (10804988753223361, (-16)); (1044180680370245, (-15)); (10078625197307856, (-16)); (9715443980131875, (-16)); (9352263204856911, (-16)); (8989082932130182, (-16)); (8625903232280968, (-16)); (8262724187486163, (-16)); (7899545894528804, (-16)); (7536368468349768, (-16)); (7173192046673891, (-16)); (6810016796111442, (-16)); (6446842920316341, (-16)); (6083670671059611, (-16)); (5720500363511798, (-16)); (5357332397728173, (-16)); (49941672894877753, (-17)); (4631005715608865, (-16)); (426784858233984, (-15)); (390469713179979, (-15)); (35415531136744416, (-17)); (31784190741130774, (-17)); (2815298867038369, (-16)); (2452198616736214, (-16)); (20891286755580413, (-17)); (17261080229747872, (-17)); (13631755717132493, (-17)); (1000425397881323, (-16)); (6381557644960652, (-17)); (2780129671121636, (-17))].
(** data.rs:55 *)
Definition EVEN_THETA_ZERO_44 : list (Z * Z) := [(15530474990322185, (-16)); (15175498442214326, (-16)); (14820521915615825, (-16)); (1446554542510861, (-15)); (14110568985643654, (-16)); (1375559261269981, (-15)); (13400616322454377, (-16)); (13045640131969503, (-16)); (12690664059399155, (-16)); (12335688124222213, (-16)); (11980712347508393, (-16)); (11625736752225089, (-16)); (11270761363595154, (-16)); (10915786209518088, (-16)); (10560811321070291, (-16)); (1020583673310438, (-15)); (9850862484973096, (-16)); (9495888621411026, (-16)); (9140915193617474, (-16)); (8785942260597805, (-16)); (843096989083984, (-15)); (8075998164428633, (-16)); (7721027175741015, (-16)); (7366057036915555, (-16)); (7011087882372793, (-16)); (665611987477763, (-15)); (6301153213012085, (-16)); (5946188142997515, (-16)); (5591224972630766, (-16)); (5236264092783025, (-16)); (48813060074411757, (-17)); (4526351377998501, (-16)); (4171401090099415, (-16)); (3816456357674021, (-16)); (3461518890753413, (-16)); (310659117783741, (-15)); (2751676985649013, (-16)); (2396782299970584, (-16)); (20419172391043397, (-17)); (16871003535133486, (-17)); (13323696764543402, (-17)); (9778171579501174, (-17)); (6237343205901608, (-17)); (2717302558182235, (-17))].
(** data.rs:56 *)
Definition EVEN_THETA_ZERO_45 : list (Z * Z) := [(1553439726211154, (-15)); (15187265256826687, (-16)); (1484013327077361, (-15)); (14493001316980665, (-16)); (14145869408791452, (-16)); (13798737560000096, (-16)); (13451605784996055, (-16)); (1310447409892181, (-15)); (12757342517847248, (-16)); (12410211058965155, (-16)); (12063079740813147, (-16)); (11715948583528435, (-16)); (11368817609143262, (-16)); (11021686841930687, (-16)); (10674556308812873, (-16)); (10327426039847099, (-16)); (9980296068808996, (-16)); (9633166433897968, (-16)); (9286037178597177, (-16)); (8938908352730484, (-16)); (8591780013772377, (-16)); (8244652228485704, (-16)); (7897525074988289, (-16)); (7550398645386622, (-16)); (7203273049167973, (-16)); (6856148417619669, (-16)); (6509024909658765, (-16)); (6161902719627732, (-16)); (5814782087876726, (-16)); (5467663315368932, (-16)); (5120546784214695, (-16)); (47734329871461617, (-17)); (4426322570828637, (-16)); (40792164012275745, (-17)); (3732115665343574, (-16)); (3385022035318641, (-16)); (3037937944563406, (-16)); (2690867076466993, (-16)); (23438152844410884, (-17)); (1996792463094099, (-16)); (16498167528530996, (-17)); (13029253463859564, (-17)); (9562081616094949, (-17)); (609950278610204, (-16)); (26572522908547766, (-18))].
(** data.rs:57 *)
Definition EVEN_THETA_ZERO_46 : list (Z * Z) := [(15538149929749048, (-16)); (15198523259077419, (-16)); (14858896605643412, (-16)); (14519269981116478, (-16)); (1417964339743631, (-15)); (1384001686692846, (-15)); (13500390402427769, (-16)); (13160764017412323, (-16)); (12821137726151, (-13)); (12481511543868173, (-16)); (12141885486929842, (-16)); (11802259573056224, (-16)); (11462633821567032, (-16)); (1112300825366699, (-15)); (1078338289278105, (-15)); (10443757764951076, (-16)); (10104132899308902, (-16)); (9764508328644781, (-16)); (9424884090095589, (-16)); (9085260225984488, (-16)); (8745636784853451, (-16)); (840601382274346, (-15)); (8066391404795569, (-16)); (7726769607271702, (-16)); (7387148520130368, (-16)); (7047528250344497, (-16)); (6707908926224333, (-16)); (6368290703120276, (-16)); (602867377104933, (-15)); (5689058365047911, (-16)); (5349444779460832, (-16)); (5009833388030908, (-16)); (4670224672735823, (-16)); (4330619266162572, (-16)); (3991018015460701, (-16)); (36514220818772564, (-17)); (33118331013144664, (-17)); (29722534544863527, (-17)); (26326867450616837, (-17)); (22931386998150813, (-17)); (19536189993434708, (-17)); (16141453917778978, (-17)); (1274754265555317, (-16)); (9355335943686297, (-17)); (5967622944002586, (-17)); (2599798753052849, (-17))].
(** data.rs:58 *)
Definition EVEN_THETA_ZERO_47 : list (Z * Z) := [(15541743761129116, (-16)); (15209304752636403, (-16)); (14876865759630271, (-16)); (14544426792588032, (-16)); (14211987862219442, (-16)); (13879548979565854, (-16)); (1354711015610582, (-15)); (13214671403869311, (-16)); (12882232735563095, (-16)); (12549794164710084, (-16)); (12217355705806159, (-16)); (11884917374498432, (-16)); (11552479187789915, (-16)); (11220041164276557, (-16)); (1088760332442402, (-15)); (10555165690893407, (-16)); (1022272828892741, (-15)); (9890291146811467, (-16)); (9557854296428465, (-16)); (9225417773930867, (-16)); (8892981620561222, (-16)); (8560545883661619, (-16)); (822811061792568, (-15)); (7895675886964735, (-16)); (7563241765284944, (-16)); (7230808340807682, (-16)); (6898375718116413, (-16)); (6565944022687408, (-16)); (6233513406471279, (-16)); (590108405535745, (-15)); (5568656199307345, (-16)); (5236230126340485, (-16)); (4903806202198477, (-16)); (4571384898571183, (-16)); (4238966834573972, (-16)); (39065528393471255, (-17)); (35741440494839105, (-17)); (3241742066189949, (-16)); (2909349219721994, (-16)); (25769690374112836, (-17)); (224460712476375, (-15)); (19122729574312747, (-17)); (15799839078614067, (-17)); (12477755943086756, (-17)); (9157341285433676, (-17)); (5841325237532701, (-17)); (25447770762408162, (-18))].
(** data.rs:59 *)
Definition EVEN_THETA_ZERO_48 : list (Z * Z) := [(15545188631533546, (-16)); (15219639363337827, (-16)); (14894090109086864, (-16)); (14568540878209186, (-16)); (14242991680333885, (-16)); (13917442525375952, (-16)); (1359189342362693, (-15)); (13266344385852693, (-16)); (1294079542340035, (-15)); (1261524654831669, (-15)); (12289697773480837, (-16)); (11964149112754445, (-16)); (1163860058115329, (-15)); (11313052195045066, (-16)); (1098750397237915, (-15)); (10661955932955574, (-16)); (1033640809874213, (-15)); (10010860494250853, (-16)); (9685313146988135, (-16)); (9359766087996588, (-16)); (9034219352512048, (-16)); (8708672980765997, (-16)); (8383127018973109, (-16)); (8057581520556424, (-16)); (7732036547680257, (-16)); (740649217318562, (-15)); (7080948483057715, (-16)); (6755405579604903, (-16)); (6429863585601199, (-16)); (6104322649751623, (-16)); (5778782954001508, (-16)); (545324472345925, (-15)); (5127708240092148, (-16)); (48021738619824955, (-17)); (4476642050968423, (-16)); (41511134132612115, (-17)); (38255887607470257, (-17)); (35000692063955025, (-17)); (3174556318161705, (-16)); (2849052377944113, (-16)); (25235608399078757, (-17)); (21980871933238272, (-17)); (18726407174005727, (-17)); (1547238424480887, (-16)); (12219151945674987, (-17)); (8967553546914316, (-17)); (5720262597323678, (-17)); (2492036059421555, (-17))].
(** data.rs:60 *)
Definition EVEN_THETA_ZERO_49 : list (Z * Z) := [(1554849361424471, (-15)); (15229554311019338, (-16)); (1491061502037752, (-15)); (1459167575082262, (-15)); (1427273651103158, (-15)); (13953797309928622, (-16)); (13634858156763308, (-16)); (13315919061194534, (-16)); (12996980033382073, (-16)); (1267804108408757, (-15)); (12359102224787284, (-16)); (12040163467799136, (-16)); (11721224826427272, (-16)); (11402286315127879, (-16)); (11083347949700912, (-16)); (1076440974751339, (-15)); (1044547172776127, (-15)); (1012653391177865, (-15)); (980759632340532, (-15)); (9488658989426542, (-16)); (916972194010287, (-15)); (8850785209812849, (-16)); (8531848837838286, (-16)); (8212912869330969, (-16)); (789397735651225, (-15)); (7575042360174186, (-16)); (7256107951575084, (-16)); (6937174214856351, (-16)); (6618241250156436, (-16)); (6299309177668762, (-16)); (5980378142995696, (-16)); (5661448324309071, (-16)); (5342519942071113, (-16)); (5023593272451872, (-16)); (4704668666194035, (-16)); (43857465756922603, (-17)); (4066827594785526, (-16)); (37479125188139256, (-17)); (3429002438089823, (-16)); (3110098888674705, (-16)); (27912041060789916, (-17)); (24723214742791205, (-17)); (21534563710369667, (-17)); (1834617887100953, (-16)); (15158226893380836, (-17)); (11971049494841757, (-17)); (878547282312169, (-16)); (56041161417495246, (-18)); (24414367816068195, (-18))].
(** data.rs:61 *)
Definition EVEN_THETA_ZERO_50 : list (Z * Z) := [(15551667060340237, (-16)); (15239074648905824, (-16)); (14926482248850166, (-16)); (14613889867858392, (-16)); (14301297513766311, (-16)); (13988705194624218, (-16)); (1367611291876438, (-15)); (13363520694873412, (-16)); (13050928532070913, (-16)); (12738336439995954, (-16)); (12425744428903238, (-16)); (12113152509771032, (-16)); (11800560694423472, (-16)); (11487968995670226, (-16)); (11175377427467235, (-16)); (10862786005103044, (-16)); (10550194745416208, (-16)); (10237603667050692, (-16)); (9925012790757765, (-16)); (9612422139755203, (-16)); (9299831740157389, (-16)); (8987241621493743, (-16)); (8674651817337867, (-16)); (8362062366076505, (-16)); (8049473311856389, (-16)); (7736884705759381, (-16)); (7424296607273231, (-16)); (7111709086148905, (-16)); (679912222476892, (-15)); (6486536121198916, (-16)); (6173950893164464, (-16)); (586136668329816, (-15)); (5548783666157333, (-16)); (5236202057751242, (-16)); (49236221286912296, (-17)); (46110442226798687, (-17)); (4298468783051183, (-16)); (39858963917709006, (-17)); (36733278282979, (-14)); (33607641611950645, (-17)); (30482068959054565, (-17)); (27356582234032456, (-17)); (24231214602750462, (-17)); (21106018772170484, (-17)); (17981083840233145, (-17)); (14856573158400607, (-17)); (11732821643303372, (-17)); (8610639001623935, (-17)); (54925923722497376, (-18)); (23928513799576872, (-18))].
(** data.rs:63 *)
Definition ODD_THETA_ZERO_1 : list (Z * Z) := [(684719203002283, (-15))].
(** data.rs:64 *)
Definition ODD_THETA_ZERO_2 : list (Z * Z) := [(10021768036431216, (-16)); (43663494922552215, (-17))].
(** data.rs:65 *)
Definition ODD_THETA_ZERO_3 : list (Z * Z) := [(11528929537222274, (-16)); (735446614322952, (-15)); (320405090290062, (-15))].
(** data.rs:66 *)
Definition ODD_THETA_ZERO_4 : list (Z * Z) := [(12405739234043633, (-16)); (9104740292261473, (-16)); (5807869795060066, (-16)); (2530224166119307, (-16))].
(** data.rs:67 *)
Definition ODD_THETA_ZERO_5 : list (Z * Z) := [(12978777293314503, (-16)); (10250032263695747, (-16)); (7522519395990821, (-16)); (4798534223256743, (-16)); (20904928741374093, (-17))].
(** data.rs:68 *)
Definition ODD_THETA_ZERO_6 : list (Z * Z) := [(13382476761004545, (-16)); (110571806624849, (-14)); (873236609940163, (-15)); (6408663264733868, (-16)); (4088002373420212, (-16)); (17809445812627656, (-17))].
(** data.rs:69 *)
Definition ODD_THETA_ZERO_7 : list (Z * Z) := [(13682195369923518, (-16)); (11656520656030303, (-16)); (9631067821301482, (-16)); (7606069572889919, (-16)); (5582062109125313, (-16)); (3560718303314725, (-16)); (15512310697473752, (-17))].
(** data.rs:70 *)
Definition ODD_THETA_ZERO_8 : list (Z * Z) := [(13913506470152874, (-16)); (12119099662114696, (-16)); (10324807284172395, (-16)); (8530732514258506, (-16)); (6737074594242523, (-16)); (49443038181949833, (-17)); (31538985949292825, (-17)); (13739989529925475, (-17))].
(** data.rs:71 *)
Definition ODD_THETA_ZERO_9 : list (Z * Z) := [(1409742336767429, (-15)); (12486912243313393, (-16)); (1087646521650455, (-15)); (9266134127998189, (-16)); (765600762050834, (-15)); (6046261769405451, (-16)); (4437316659960952, (-16)); (2830497588453068, (-16)); (12331086730823128, (-17))].
(** data.rs:72 *)
Definition ODD_THETA_ZERO_10 : list (Z * Z) := [(14247154751767428, (-16)); (12786363752428986, (-16)); (11325611010125376, (-16)); (9864925055883794, (-16)); (8404350520135059, (-16)); (6943966110110701, (-16)); (548393028181039, (-15)); (4024623099018152, (-16)); (2567245837448891, (-16)); (11184226514288909, (-17))].
(** data.rs:73 *)
Definition ODD_THETA_ZERO_11 : list (Z * Z) := [(14371419353035264, (-16)); (1303488659735581, (-15)); (116983778576283, (-14)); (10361909964044622, (-16)); (9025507517347876, (-16)); (7689210263823625, (-16)); (6353089402976823, (-16)); (5017289283414202, (-16)); (36821571310082896, (-17)); (23487915897025802, (-17)); (10232527888726325, (-17))].
(** data.rs:74 *)
Definition ODD_THETA_ZERO_12 : list (Z * Z) := [(1447620393135667, (-15)); (13244451977363867, (-16)); (12012715733241812, (-16)); (107810056841188, (-14)); (9549336362382321, (-16)); (8317729718814276, (-16)); (7086221837538611, (-16)); (5854877911108012, (-16)); (46238306301327575, (-17)); (33933997125633714, (-17)); (21645974089643394, (-17)); (943008398630552, (-16))].
(** data.rs:75 *)
Definition ODD_THETA_ZERO_13 : list (Z * Z) := [(1456575541704196, (-15)); (13423552608345521, (-16)); (12281360434689097, (-16)); (1113918572282612, (-15)); (9997037539874954, (-16)); (88549288699508, (-14)); (7712879690777517, (-16)); (6570923167092416, (-16)); (5429119513798658, (-16)); (42875915776607837, (-17)); (3146635662674374, (-16)); (20071902665903807, (-17)); (87443382806303, (-15))].
(** data.rs:76 *)
Definition ODD_THETA_ZERO_14 : list (Z * Z) := [(14643170029915653, (-16)); (13578380330800617, (-16)); (12513598043348848, (-16)); (11448827777086628, (-16)); (10384075445202967, (-16)); (9319349156915987, (-16)); (8254660749671546, (-16)); (7190028636037068, (-16)); (6125483562383021, (-16)); (5061081521563, (-13)); (3996936914666952, (-16)); (2933325857619473, (-16)); (1871123137498062, (-16)); (8151560650977882, (-17))].
(** data.rs:77 *)
Definition ODD_THETA_ZERO_15 : list (Z * Z) := [(14710758237139974, (-16)); (1371355574944659, (-15)); (12716358557361223, (-16)); (1171916986981364, (-15)); (10721993686691065, (-16)); (9724835301003497, (-16)); (8727702114891849, (-16)); (7730605060747958, (-16)); (6733561257504195, (-16)); (5736599396529728, (-16)); (47397718291907337, (-17)); (37431856192293295, (-17)); (27470992876383277, (-17)); (17523320256195085, (-17)); (7634046205384429, (-17))].
(** data.rs:78 *)
Definition ODD_THETA_ZERO_16 : list (Z * Z) := [(14770279112915523, (-16)); (13832596823482717, (-16)); (12894918400513027, (-16)); (11957246136757995, (-16)); (11019582822204614, (-16)); (1008193204014774, (-15)); (9144298626454032, (-16)); (820668942764612, (-15)); (7269114630504563, (-16)); (6331590254855162, (-16)); (5394143214244184, (-16)); (44568226790828663, (-17)); (3519729273095237, (-16)); (2583106041071418, (-16)); (16477232316431126, (-17)); (7178317184275122, (-17))].
(** data.rs:79 *)
Definition ODD_THETA_ZERO_17 : list (Z * Z) := [(14823095548256924, (-16)); (13938229222265421, (-16)); (13053365773358336, (-16)); (12168506876823533, (-16)); (11283654530246086, (-16)); (10398811235119576, (-16)); (9513980267579228, (-16)); (8629166105524045, (-16)); (7744375139383605, (-16)); (6859616923374369, (-16)); (5974906525247623, (-16)); (5090269299866796, (-16)); (42057516106472637, (-17)); (3321448379994943, (-16)); (2437588931448049, (-16)); (15549000951789246, (-17)); (6773932498157585, (-17))].
(** data.rs:80 *)
Definition ODD_THETA_ZERO_18 : list (Z * Z) := [(1487027983239551, (-15)); (14032597454969222, (-16)); (13194917254646614, (-16)); (12357240479686813, (-16)); (11519568592898115, (-16)); (10681903386895535, (-16)); (9844247150109837, (-16)); (9006602918737365, (-16)); (8168974877846822, (-16)); (7331369031796229, (-16)); (649379438688865, (-15)); (5656265174356597, (-16)); (4818805368222632, (-16)); (398145883405259, (-15)); (31443154093871234, (-17)); (2307592167302372, (-16)); (14719771569459897, (-17)); (6412678117309945, (-17))].
(** data.rs:81 *)
Definition ODD_THETA_ZERO_19 : list (Z * Z) := [(14912687181023447, (-16)); (14117411909146405, (-16)); (13322138309510154, (-16)); (125268673283081, (-14)); (11731600057945093, (-16)); (10936337812379588, (-16)); (10141082232431484, (-16)); (9345835440325075, (-16)); (8550600276575269, (-16)); (7755380679025249, (-16)); (6960182317959842, (-16)); (6165013717819834, (-16)); (5369888366794913, (-16)); (4574829005269903, (-16)); (3779877260196974, (-16)); (2985118404618625, (-16)); (2190758506462428, (-16)); (13974507651197673, (-17)); (60880033638635346, (-18))].
(** data.rs:82 *)
Definition ODD_THETA_ZERO_20 : list (Z * Z) := [(14951008016510514, (-16)); (14194053401101985, (-16)); (13437100087486278, (-16)); (1268014880389353, (-15)); (11923200380289039, (-16)); (11166255798916895, (-16)); (10409316263104549, (-16)); (9652383295306943, (-16)); (8895458882533946, (-16)); (8138545700535261, (-16)); (7381647473570305, (-16)); (6624769578126105, (-16)); (5867920109947447, (-16)); (5111111891461745, (-16)); (435436655315105, (-15)); (3597723703299625, (-16)); (28412644940605597, (-17)); (2085185052177155, (-16)); (13301070890656355, (-17)); (57946201709907975, (-18))].
(** data.rs:83 *)
Definition ODD_THETA_ZERO_21 : list (Z * Z) := [(1498580583401444, (-15)); (14263648902285846, (-16)); (13541492996299234, (-16)); (1281933868420424, (-15)); (12097186606267134, (-16)); (11375037509564148, (-16)); (1065289229411734, (-15)); (9930752076949069, (-16)); (920861828439705, (-15)); (8486492789905562, (-16)); (7764378127156926, (-16)); (7042277832708635, (-16)); (6320197021480768, (-16)); (5598143404345396, (-16)); (48761292029461395, (-17)); (41541750431695335, (-17)); (3432318703096418, (-16)); (2710637595435203, (-16)); (19893188221106575, (-17)); (12689555039265932, (-17)); (5528212871240371, (-17))].
(** data.rs:84 *)
Definition ODD_THETA_ZERO_22 : list (Z * Z) := [(15017545085948374, (-16)); (14327127304751432, (-16)); (13636710340697542, (-16)); (12946294642494307, (-16)); (12255880710832485, (-16)); (11565469122690293, (-16)); (10875060562987477, (-16)); (10184655867528407, (-16)); (949425608333585, (-15)); (8803862556198168, (-16)); (8113477061841625, (-16)); (7423102009244499, (-16)); (6732740767851639, (-16)); (6042398217472142, (-16)); (5352081720899523, (-16)); (4661802954366277, (-16)); (39715816297126216, (-17)); (3281453857685808, (-16)); (2591493642052662, (-16)); (19018798548854918, (-17)); (12131795411861307, (-17)); (52852245116351435, (-18))].
(** data.rs:85 *)
Definition ODD_THETA_ZERO_23 : list (Z * Z) := [(15046612025171964, (-16)); (14385261105410372, (-16)); (13723910843152558, (-16)); (1306256159670932, (-15)); (12401213762433159, (-16)); (11739867792058494, (-16)); (11078524214868561, (-16)); (10417183667151568, (-16)); (9755846932657443, (-16)); (9094514999854932, (-16)); (8433189145364798, (-16)); (7771871059265139, (-16)); (7110563039566126, (-16)); (6449268305419475, (-16)); (5787991523675322, (-16)); (5126739740395089, (-16)); (44655241341058893, (-17)); (38043635811409415, (-17)); (31432926667177297, (-17)); (24823822739864185, (-17)); (18218037393369235, (-17)); (11621002287916662, (-17)); (5062697144246345, (-17))].
(** data.rs:86 *)
Definition ODD_THETA_ZERO_24 : list (Z * Z) := [(15073330497396844, (-16)); (14438697989510407, (-16)); (13804066015535956, (-16)); (13169434864483365, (-16)); (1253480485358734, (-15)); (11900176340884288, (-16)); (1126554974102287, (-15)); (10630925545885772, (-16)); (999630435234233, (-15)); (9361686900661624, (-16)); (8727074129127596, (-16)); (8092467253835331, (-16)); (7457867888716805, (-16)); (6823278231980089, (-16)); (6188701366516796, (-16)); (5554141765061554, (-16)); (49196061839657435, (-17)); (4285105345527886, (-16)); (3650657359209552, (-16)); (301629540897954, (-15)); (23820875104531286, (-17)); (17481980741045353, (-17)); (11151483172915021, (-17)); (4858150828905664, (-17))].
(** data.rs:87 *)
Definition ODD_THETA_ZERO_25 : list (Z * Z) := [(15097974055216437, (-16)); (14487985057842019, (-16)); (13877996497676408, (-16)); (13268008609975723, (-16)); (12658021651202136, (-16)); (12048035908282837, (-16)); (11438051710074961, (-16)); (10828069442069586, (-16)); (10218089565820372, (-16)); (9608112645303607, (-16)); (8998139383584991, (-16)); (8388170675106567, (-16)); (7778207682214244, (-16)); (7168251950382156, (-16)); (6558305587295081, (-16)); (5948371551492265, (-16)); (5338454137827293, (-16)); (472855983646323, (-15)); (4118698949811841, (-16)); (3508888880839026, (-16)); (28991615218354677, (-17)); (2289582244272697, (-16)); (168030907125171, (-15)); (10718429767304546, (-17)); (4669490825917858, (-17))].
(** data.rs:88 *)
Definition ODD_THETA_ZERO_26 : list (Z * Z) := [(15120775355927027, (-16)); (14533587621823993, (-16)); (13946400248524482, (-16)); (13359213429141852, (-16)); (12772027372906836, (-16)); (12184842312076918, (-16)); (11597658510375572, (-16)); (11010476273651562, (-16)); (10423295963730836, (-16)); (983611801687452, (-15)); (9248942968954766, (-16)); (8661771490588063, (-16)); (8074604437333369, (-16)); (7487442923247565, (-16)); (690028843170955, (-15)); (6313142987730108, (-16)); (5726009435739572, (-16)); (5138891906843944, (-16)); (4551796645660731, (-16)); (39647335667718586, (-17)); (33777194200689636, (-17)); (27907849032843424, (-17)); (22039929419382212, (-17)); (16174956497729231, (-17)); (10317752712537848, (-17)); (4494935602951386, (-17))].
(** data.rs:89 *)
Definition ODD_THETA_ZERO_27 : list (Z * Z) := [(151419335280482, (-14)); (14575903936174688, (-16)); (14009874644191531, (-16)); (1344384581184662, (-15)); (12877817611268338, (-16)); (12311790232185842, (-16)); (11745763888226408, (-16)); (11179738824759438, (-16)); (10613715328936535, (-16)); (10047693742853108, (-16)); (9481674481184789, (-16)); (8915658055327279, (-16)); (8349645107156934, (-16)); (7783636457331087, (-16)); (72176331761184, (-14)); (6651636690166557, (-16)); (6085648948549621, (-16)); (5519672690500085, (-16)); (4953711895788267, (-16)); (438777258172922, (-15)); (3821864303519236, (-16)); (3256003205491779, (-16)); (2690218877324958, (-16)); (2124571975249336, (-16)); (15592091298915153, (-17)); (9945952063842375, (-17)); (4332960406341033, (-17))].
(** data.rs:90 *)
Definition ODD_THETA_ZERO_28 : list (Z * Z) := [(15161620000945493, (-16)); (14615276857907824, (-16)); (14068933965792296, (-16)); (1352259145769087, (-15)); (1297624947629923, (-15)); (1242990817790598, (-15)); (11883567737150622, (-16)); (11337228352875257, (-16)); (1079089025551156, (-15)); (10244553716621014, (-16)); (969821906147476, (-15)); (915188668597401, (-15)); (8605557079864861, (-16)); (8059230859253163, (-16)); (7512908813164714, (-16)); (6966591971861112, (-16)); (6420281709850566, (-16)); (5873979906122764, (-16)); (5327689202536826, (-16)); (4781413438508069, (-16)); (42351584202695036, (-17)); (3688933369002844, (-16)); (3142753865947702, (-16)); (25966484701215564, (-17)); (20506757266164843, (-17)); (15049771646397678, (-17)); (9600014792058155, (-17)); (41822526076459324, (-18))].
(** data.rs:91 *)
Definition ODD_THETA_ZERO_29 : list (Z * Z) := [(15179983159059758, (-16)); (14652003154620266, (-16)); (1412402336143181, (-15)); (13596043891112282, (-16)); (13068064862797348, (-16)); (12540086406220892, (-16)); (1201210866535131, (-15)); (114841318028118, (-14)); (10956156005389994, (-16)); (10428181491057105, (-16)); (9900208518088601, (-16)); (9372237397138955, (-16)); (8844268507524555, (-16)); (8316302319600398, (-16)); (7788339426133211, (-16)); (7260380587255163, (-16)); (6732426796448046, (-16)); (6204479380061241, (-16)); (5676540152134466, (-16)); (5148611664077888, (-16)); (4620697624728054, (-16)); (40928036437350335, (-17)); (3564938631002461, (-16)); (30371176427900437, (-17)); (2509368276982061, (-16)); (1981747109679033, (-16)); (14543909118238407, (-17)); (9277332955453467, (-17)); (40416760551130256, (-18))].
(** data.rs:92 *)
Definition ODD_THETA_ZERO_30 : list (Z * Z) := [(15197152088230867, (-16)); (14686340997020626, (-16)); (14175530084690147, (-16)); (13664719445423472, (-16)); (1315390917933947, (-15)); (12643099394893638, (-16)); (1213229021168654, (-15)); (11621481763841373, (-16)); (11110674204165008, (-16)); (10599867709382966, (-16)); (10089062486850917, (-16)); (9578258783312408, (-16)); (9067456896525242, (-16)); (8556657190967861, (-16)); (8045860119448479, (-16)); (7535066253423996, (-16)); (7024276326462753, (-16)); (6513491298057894, (-16)); (6002712449887427, (-16)); (5491941535583391, (-16)); (49811810222760183, (-17)); (4470434496975185, (-16)); (3959707385770102, (-16)); (3449008307748737, (-16)); (2938351828535981, (-16)); (24277646475813236, (-17)); (19173015002307012, (-17)); (14070947088007504, (-17)); (897563783663363, (-16)); (39102423803544194, (-18))].
(** data.rs:93 *)
Definition ODD_THETA_ZERO_31 : list (Z * Z) := [(15213239614227005, (-16)); (1471851603590422, (-15)); (14223792609868495, (-16)); (13729069416047985, (-16)); (1323434653909308, (-15)); (12739624070265905, (-16)); (12244902109630558, (-16)); (11750180768661336, (-16)); (11255460173421563, (-16)); (10760740468516823, (-16)); (10266021822100946, (-16)); (9771304432322302, (-16)); (9276588535760336, (-16)); (8781874418647316, (-16)); (8287162432047307, (-16)); (7792453012756761, (-16)); (7297746712644485, (-16)); (6803044240724808, (-16)); (6308346524943159, (-16)); (581365480538874, (-15)); (5318970779332963, (-16)); (48242968351540555, (-17)); (43296364459086983, (-17)); (3834994865870752, (-16)); (3340380441799942, (-16)); (28458072797485445, (-17)); (23513012374709608, (-17)); (1856915325646991, (-16)); (1362777698319135, (-16)); (8692946525012055, (-17)); (3787087726949234, (-17))].
(** data.rs:94 *)
Definition ODD_THETA_ZERO_32 : list (Z * Z) := [(15228344784723586, (-16)); (14748726366051383, (-16)); (14269108077682844, (-16)); (13789489987810553, (-16)); (13309872168412247, (-16)); (12830254696749686, (-16)); (1235063765709223, (-15)); (11871021142750737, (-16)); (1139140525853183, (-15)); (10911790123757596, (-16)); (10432175876046048, (-16)); (995256267612037, (-15)); (9472950714021223, (-16)); (8993340217254078, (-16)); (8513731461641338, (-16)); (8034124786014694, (-16)); (7554520612457603, (-16)); (7074919474732165, (-16)); (6595322059052657, (-16)); (6115729263971504, (-16)); (5636142290734364, (-16)); (5156562783879918, (-16)); (4676993058012954, (-16)); (4197436479350834, (-16)); (3717898140987174, (-16)); (3238386134116157, (-16)); (2758914133405792, (-16)); (22795072064314245, (-17)); (18002167446370065, (-17)); (13211669884398416, (-17)); (8427518284958235, (-17)); (36714537421868976, (-18))].
(** data.rs:95 *)
Definition ODD_THETA_ZERO_33 : list (Z * Z) := [(15242554910135768, (-16)); (14777146607849527, (-16)); (14311738417586528, (-16)); (1384633039781787, (-15)); (13380922610069657, (-16)); (12915515120121248, (-16)); (12450107999373, (-13)); (11984701326446705, (-16)); (11519295189099072, (-16)); (11053889686552827, (-16)); (1058848493238442, (-15)); (10123081058156513, (-16)); (9657678218054127, (-16)); (9192276594886802, (-16)); (8726876407972168, (-16)); (8261477923647281, (-16)); (779608146950905, (-15)); (7330687454042533, (-16)); (686529639419301, (-15)); (6399908954920467, (-16)); (5934526007301574, (-16)); (5469148716199144, (-16)); (5003778676688562, (-16)); (45384181341050917, (-17)); (4073070354279486, (-16)); (3607740278788823, (-16)); (3142435758510728, (-16)); (26771700623899447, (-17)); (22119675147395676, (-17)); (17468779838078743, (-17)); (128202202838348, (-15)); (8177818680168765, (-17)); (3562671947817428, (-17))].
(** data.rs:96 *)
Definition ODD_THETA_ZERO_34 : list (Z * Z) := [(15255947252147708, (-16)); (14803931284320457, (-16)); (14351915413230856, (-16)); (13899899689249597, (-16)); (13447884165229078, (-16)); (1299586889746828, (-15)); (1254385394680662, (-15)); (12091839379893952, (-16)); (11639825270696, (-13)); (11187811702311548, (-16)); (1073579876920155, (-15)); (10283786579964127, (-16)); (9831775260837211, (-16)); (9379764960179657, (-16)); (8927755854282049, (-16)); (8475748155007348, (-16)); (8023742119985848, (-16)); (7571738066433709, (-16)); (7119736390205872, (-16)); (666773759256546, (-15)); (6215742318591893, (-16)); (5763751413603714, (-16)); (5311766008298876, (-16)); (4859787651249622, (-16)); (4407818522612534, (-16)); (3955861793705505, (-16)); (3503922263398634, (-16)); (30520075561673443, (-17)); (2600130558662051, (-16)); (2148314894784556, (-16)); (1696608997322034, (-16)); (124512995538927, (-15)); (7942489891978154, (-17)); (3460150809198017, (-17))].
(** data.rs:97 *)
Definition ODD_THETA_ZERO_35 : list (Z * Z) := [(15268590428905895, (-16)); (14829217631484037, (-16)); (14389844917951646, (-16)); (13950472331892525, (-16)); (1351109991891878, (-15)); (13071727727453046, (-16)); (1263235580960969, (-15)); (12192984222210508, (-16)); (11753613027979166, (-16)); (11314242296970658, (-16)); (1087487210830888, (-15)); (10435502552328872, (-16)); (9996133733253191, (-16)); (9556765772578536, (-16)); (9117398813415957, (-16)); (8678033026125662, (-16)); (8238668615732248, (-16)); (7799305831824294, (-16)); (7359944981977458, (-16)); (6920586450266629, (-16)); (648123072327965, (-15)); (6041878427445001, (-16)); (5602530383870994, (-16)); (5163187691099713, (-16)); (47238518538915, (-14)); (4284524990953311, (-16)); (38452101844542497, (-17)); (3405912098612419, (-16)); (29666381442337036, (-17)); (25274008471240783, (-17)); (20882231700170578, (-17)); (16491521905997228, (-17)); (12103017224711601, (-17)); (7720326018898818, (-17)); (3363364974516995, (-17))].
(** data.rs:98 *)
Definition ODD_THETA_ZERO_36 : list (Z * Z) := [(15280545590834052, (-16)); (14853127949970977, (-16)); (14425710382144707, (-16)); (139982929252232, (-14)); (13570875618741667, (-16)); (13143458504540788, (-16)); (12716041627481434, (-16)); (1228862503626297, (-15)); (11861208784378394, (-16)); (1143379293124832, (-15)); (11006377543587709, (-16)); (10578962697075762, (-16)); (1015154847842238, (-15)); (9724134987956584, (-16)); (9296722342907947, (-16)); (8869310681617368, (-16)); (8441900169008687, (-16)); (8014491003793524, (-16)); (7587083428093936, (-16)); (7159677740493625, (-16)); (6732274314040502, (-16)); (6304873621547357, (-16)); (5877476271899241, (-16)); (5450083063396327, (-16)); (5022695064252395, (-16)); (4595313737871712, (-16)); (4167941144922007, (-16)); (37405802833368024, (-17)); (3313235690067747, (-16)); (288591457393348, (-15)); (24586291195842494, (-17)); (20314016646153016, (-17)); (16042780054057115, (-17)); (11773688583392444, (-17)); (7510252408650087, (-17)); (3271846270775479, (-17))].
(** data.rs:99 *)
Definition ODD_THETA_ZERO_37 : list (Z * Z) := [(1529186740959505, (-15)); (14875771582933888, (-16)); (14459675820099793, (-16)); (14043580154123365, (-16)); (13627484619413115, (-16)); (132113892522793, (-14)); (12795294091517333, (-16)); (1237919917907157, (-15)); (1196310456080473, (-15)); (11547010287404567, (-16)); (1113091641546798, (-15)); (10714823008814514, (-16)); (10298730140097359, (-16)); (9882637892802374, (-16)); (9466546363756945, (-16)); (9050455666314926, (-16)); (8634365934447507, (-16)); (8218277328062565, (-16)); (7802190040012227, (-16)); (7386104305454958, (-16)); (6970020414556032, (-16)); (6553938730008771, (-16)); (6137859711661063, (-16)); (5721783951857431, (-16)); (5305712227365694, (-16)); (4889645577740233, (-16)); (4473585427277744, (-16)); (40575337817350393, (-17)); (3641493559322687, (-16)); (32254691765151794, (-17)); (2809467650889194, (-16)); (2393500844055271, (-16)); (1977590501629603, (-16)); (1561781206604067, (-16)); (11461807422714833, (-17)); (731130827497866, (-16)); (31851761307914006, (-18))].
(** data.rs:100 *)
Definition ODD_THETA_ZERO_38 : list (Z * Z) := [(15302604913947664, (-16)); (14897246587751152, (-16)); (14491888317531774, (-16)); (14086530132207349, (-16)); (1368117206184034, (-15)); (132758141380702, (-14)); (12870456394592487, (-16)); (12465098867700755, (-16)); (1205974159691065, (-15)); (11654384625690177, (-16)); (11249028002326418, (-16)); (10843671780967374, (-16)); (10438316022889256, (-16)); (10032960798055206, (-16)); (9627606187053432, (-16)); (9222252283533213, (-16)); (8816899197300536, (-16)); (8411547058297167, (-16)); (800619602177724, (-15)); (7600846275129128, (-16)); (7195498046991649, (-16)); (6790151619622966, (-16)); (6384807345966276, (-16)); (5979465673637772, (-16)); (5574127179353943, (-16)); (5168792619515767, (-16)); (4763463006547496, (-16)); (43581397277032036, (-17)); (3952824736706232, (-16)); (35475208761995036, (-17)); (31422324484366737, (-17)); (273696628965902, (-15)); (23317339551444963, (-17)); (19265566291163158, (-17)); (15214777438359894, (-17)); (11166023009182324, (-17)); (712263200592539, (-16)); (3102979192734514, (-17))].
(** data.rs:101 *)
Definition ODD_THETA_ZERO_39 : list (Z * Z) := [(15312802199455309, (-16)); (14917641155437116, (-16)); (14522480160677231, (-16)); (14127319240581506, (-16)); (13732158421511271, (-16)); (13336997731142082, (-16)); (129418371988594, (-14)); (12546676856203667, (-16)); (12151516737379784, (-16)); (1175635687984935, (-15)); (11361197325028682, (-16)); (10966038119121704, (-16)); (10570879314125186, (-16)); (1017572096905509, (-15)); (9780563151458207, (-16)); (9385405939294599, (-16)); (8990249423306287, (-16)); (8595093710029676, (-16)); (8199938925669823, (-16)); (7804785221142635, (-16)); (740963277872144, (-15)); (7014481820920566, (-16)); (6619332622550151, (-16)); (6224185527349886, (-16)); (5829040971371158, (-16)); (5433899516536147, (-16)); (5038761899947553, (-16)); (4643629108305196, (-16)); (42485024937221766, (-17)); (3853383960541811, (-16)); (3458276279674768, (-16)); (3063183644932167, (-16)); (2668112720373341, (-16)); (22730747703847656, (-17)); (18780904460695785, (-17)); (14832020868824491, (-17)); (10885120527413226, (-17)); (6943448689600674, (-17)); (30249178657209233, (-18))].
(** data.rs:102 *)
Definition ODD_THETA_ZERO_40 : list (Z * Z) := [(15322499033712818, (-16)); (14937034821089987, (-16)); (14551570651952004, (-16)); (14166106548693402, (-16)); (13780642534509977, (-16)); (1339517863369794, (-15)); (13009714871982454, (-16)); (1262425127688525, (-15)); (12238787878143083, (-16)); (11853324708191133, (-16)); (11467861802729047, (-16)); (11082399201391657, (-16)); (10696936948552629, (-16)); (1031147509429735, (-15)); (9926013695612463, (-16)); (954055281785449, (-15)); (9155092536580933, (-16)); (8769632939856247, (-16)); (8384174131186299, (-16)); (7998716233293993, (-16)); (7613259393034546, (-16)); (7227803787876119, (-16)); (6842349634562861, (-16)); (6456897200871629, (-16)); (6071446821835497, (-16)); (5685998922550279, (-16)); (530055405090843, (-15)); (49151129256972176, (-17)); (4529676509187803, (-16)); (41442461201080544, (-17)); (375882361587393, (-15)); (33734116992118474, (-17)); (29880144608386194, (-17)); (2602638401106843, (-16)); (22172945078117542, (-17)); (18320029251240183, (-17)); (14468049533470506, (-17)); (10618004403746607, (-17)); (6773059476567832, (-17)); (29506876955274222, (-18))].
(** data.rs:103 *)
Definition ODD_THETA_ZERO_41 : list (Z * Z) := [(15331731374606345, (-16)); (14955499500407343, (-16)); (1457926766471341, (-15)); (14203035887326945, (-16)); (13826804188725208, (-16)); (13450572590311, (-13)); (1307434111468679, (-15)); (12698109785960017, (-16)); (12321878630088716, (-16)); (1194564767527852, (-15)); (1156941695244461, (-15)); (11193186495755596, (-16)); (1081695634328068, (-15)); (10440726537767508, (-16)); (10064497127586025, (-16)); (9688268167884442, (-16)); (9312039722018275, (-16)); (8935811863333634, (-16)); (8559584677414483, (-16)); (8183358264943739, (-16)); (7807132745385689, (-16)); (7430908261781095, (-16)); (70546849870704, (-14)); (6678463132547298, (-16)); (6302242959332083, (-16)); (592602479420498, (-15)); (5549809051864956, (-16)); (5173596266878258, (-16)); (4797387140623364, (-16)); (44211826121403186, (-17)); (4044983968396638, (-16)); (36687930221529946, (-17)); (329261241124057, (-15)); (2916446128242035, (-16)); (25403005176659343, (-17)); (21641863039856202, (-17)); (17881231487420077, (-17)); (14121513628844118, (-17)); (10363684026346451, (-17)); (661083247091641, (-16)); (288001339628084, (-16))].
(** data.rs:104 *)
Definition ODD_THETA_ZERO_42 : list (Z * Z) := [(15340531815844491, (-16)); (1497310038074501, (-15)); (14605668979840027, (-16)); (1423823763069233, (-15)); (1387080635143548, (-15)); (13503375160984807, (-16)); (13135944079267239, (-16)); (12768513127476127, (-16)); (12401082328358273, (-16)); (12033651706541817, (-16)); (11666221288915568, (-16)); (1129879110507285, (-15)); (10931361187836244, (-16)); (10563931573884058, (-16)); (1019650230450503, (-15)); (9829073426515786, (-16)); (9461644993385943, (-16)); (9094217066630321, (-16)); (8726789717547518, (-16)); (8359363029411929, (-16)); (7991937100265522, (-16)); (7624512046511992, (-16)); (7257088007597791, (-16)); (688966515218569, (-15)); (6522243686409074, (-16)); (6154823865075504, (-16)); (5787406007128421, (-16)); (5419990517384126, (-16)); (5052577917731961, (-16)); (4685168892980174, (-16)); (43177643600470994, (-17)); (3950365575646973, (-16)); (358297430999431, (-15)); (3215593139080008, (-16)); (2848225961961619, (-16)); (2480878974611689, (-16)); (21135626505171548, (-17)); (1746296191183898, (-16)); (1379118964507339, (-16)); (10121261469414694, (-17)); (6456194899726138, (-17)); (28126454390792994, (-18))].
(** data.rs:105 *)
Definition ODD_THETA_ZERO_43 : list (Z * Z) := [(15348929971395573, (-16)); (14989896689988975, (-16)); (14630863439032857, (-16)); (14271830234148142, (-16)); (13912797091440405, (-16)); (1355376402767822, (-15)); (1319473106048673, (-15)); (12835698208561375, (-16)); (1247666549190743, (-15)); (12117632932112314, (-16)); (11758600552658842, (-16)); (1139956837928964, (-15)); (1104053644043539, (-15)); (10681504767722783, (-16)); (10322473396582437, (-16)); (9963442366982619, (-16)); (9604411724322427, (-16)); (9245381520528253, (-16)); (8886351815411563, (-16)); (8527322678365407, (-16)); (8168294190504262, (-16)); (7809266447390143, (-16)); (745023956254293, (-15)); (7091213672012905, (-16)); (6732188940411854, (-16)); (6373165568977467, (-16)); (6014143806519714, (-16)); (565512396452813, (-15)); (529610643841104, (-15)); (49370917379817564, (-17)); (4578080532255782, (-16)); (42190737170597853, (-17)); (3860072520255396, (-16)); (3501078671472636, (-16)); (31420946877049327, (-17)); (27831243787752186, (-17)); (24241737989246254, (-17)); (20652531821410716, (-17)); (17063812909386716, (-17)); (13475965932823153, (-17)); (9889920900871123, (-17)); (6308626356388784, (-17)); (27483571084405082, (-18))].
(** data.rs:106 *)
Definition ODD_THETA_ZERO_44 : list (Z * Z) := [(153569528083863, (-14)); (15005942362350677, (-16)); (14654931943503038, (-16)); (14303921565774926, (-16)); (13952911243510968, (-16)); (13601900991620242, (-16)); (1325089082574, (-12)); (1289988076241572, (-15)); (12548870819302027, (-16)); (1219786101538995, (-15)); (11846851371267022, (-16)); (11495841909418207, (-16)); (11144832654577495, (-16)); (10793823634142428, (-16)); (1044281487866709, (-15)); (10091806422453178, (-16)); (974079830426451, (-15)); (9389790568197675, (-16)); (903878326475175, (-15)); (8687776452153702, (-16)); (8336770198015192, (-16)); (798576458142297, (-15)); (763475969560261, (-15)); (7283755651349081, (-16)); (6932752581495918, (-16)); (6581750646810479, (-16)); (6230750043877162, (-16)); (5879751015798286, (-16)); (552875386696297, (-15)); (517775898381102, (-15)); (48267668646371864, (-17)); (44757781633867016, (-17)); (41247937557528835, (-17)); (37738148420490536, (-17)); (34228431131485815, (-17)); (3071881029697498, (-16)); (2720932316284943, (-16)); (23700028917671276, (-17)); (2019102761348422, (-16)); (1668250268181993, (-16)); (13174830205329827, (-17)); (9668919410176594, (-17)); (6167652949817792, (-17)); (2686941953400763, (-17))].
(** data.rs:107 *)
Definition ODD_THETA_ZERO_45 : list (Z * Z) := [(15364624936346536, (-16)); (15021286616854894, (-16)); (14677948321699503, (-16)); (14334610063337474, (-16)); (13991271854579272, (-16)); (13647933708717674, (-16)); (13304595639666825, (-16)); (1296125766211457, (-15)); (12617919791691745, (-16)); (12274582045162763, (-16)); (11931244440642688, (-16)); (11587906997847055, (-16)); (11244569738382209, (-16)); (10901232686085633, (-16)); (1055789586742829, (-15)); (10214559311994023, (-16)); (987122305305524, (-15)); (9527887128269591, (-16)); (9184551580529615, (-16)); (8841216459007313, (-16)); (8497881820448998, (-16)); (8154547730794464, (-16)); (7811214267220411, (-16)); (7467881520744806, (-16)); (7124549599581423, (-16)); (6781218633510391, (-16)); (6437888779643722, (-16)); (6094560230135453, (-16)); (5751233222647906, (-16)); (540790805479711, (-15)); (5064585104462233, (-16)); (4721264858937837, (-16)); (4377947957771643, (-16)); (40346352574169186, (-17)); (36913279318554165, (-17)); (33480276349099464, (-17)); (30047367733536573, (-17)); (2661458990278704, (-16)); (2318200075085118, (-16)); (19749698142050345, (-17)); (1631786149772797, (-16)); (12886858679451502, (-17)); (9457579039019365, (-17)); (60328422209459165, (-18)); (2628211572883546, (-17))].
(** data.rs:108 *)
Definition ODD_THETA_ZERO_46 : list (Z * Z) := [(15371968859335723, (-16)); (15035974461591297, (-16)); (14699980085683042, (-16)); (14363985742777294, (-16)); (14027991444343684, (-16)); (13691997202265422, (-16)); (13356003028957857, (-16)); (13020008937497878, (-16)); (12684014941767183, (-16)); (1234802105661283, (-15)); (12012027298029286, (-16)); (1167603368336689, (-15)); (11340040231572885, (-16)); (11004046963472434, (-16)); (1066805390209896, (-15)); (10332061073085457, (-16)); (9996068505131473, (-16)); (9660076230564559, (-16)); (9324084286020319, (-16)); (8988092713272343, (-16)); (8652101560253048, (-16)); (8316110882319595, (-16)); (7980120743837287, (-16)); (7644131220178279, (-16)); (7308142400269309, (-16)); (6972154389873656, (-16)); (6636167315867435, (-16)); (6300181331881123, (-16)); (5964196625844131, (-16)); (5628213430226633, (-16)); (5292232036175456, (-16)); (4956252813388603, (-16)); (4620276238643497, (-16)); (42843029377180125, (-17)); (39483337486595615, (-17)); (3612369820255325, (-16)); (3276412770872601, (-16)); (2940464955725917, (-16)); (2604529939906063, (-16)); (22686133889038673, (-17)); (19327248797468569, (-17)); (15968819707144524, (-17)); (12611206610329517, (-17)); (9255279834764232, (-17)); (5903798711627596, (-17)); (25719936852887412, (-18))].
(** data.rs:109 *)
Definition ODD_THETA_ZERO_47 : list (Z * Z) := [(15379005196391773, (-16)); (15050047134611189, (-16)); (14721089092468767, (-16)); (14392131079997539, (-16)); (14063173107491718, (-16)); (13734215185601357, (-16)); (1340525732543379, (-15)); (13076299538664, (-13)); (12747341837656345, (-16)); (12418384235600424, (-16)); (12089426746664416, (-16)); (117604693861699, (-14)); (1143151217079297, (-15)); (11102555118797521, (-16)); (10773598250308032, (-16)); (10444641587630865, (-16)); (1011568515563551, (-15)); (9786728982210094, (-16)); (945777309880958, (-15)); (9128817541120208, (-16)); (8799862349870846, (-16)); (8470907571831348, (-16)); (8141953261050969, (-16)); (7812999480407721, (-16)); (7484046303564402, (-16)); (7155093817462244, (-16)); (6826142125533466, (-16)); (6497191351887404, (-16)); (6168241646833333, (-16)); (5839293194266533, (-16)); (551034622169515, (-15)); (5181401014079634, (-16)); (48524579332906326, (-17)); (4523517446039431, (-16)); (41945801649207226, (-17)); (3865646910356375, (-16)); (353671880700319, (-15)); (3207797439266498, (-16)); (28788851129698484, (-17)); (25499853184775156, (-17)); (22211036025685083, (-17)); (18922493416437852, (-17)); (15634397262123947, (-17)); (12347100015370682, (-17)); (906145377673662, (-16)); (5780160090309369, (-17)); (25181304406382516, (-18))].
(** data.rs:110 *)
Definition ODD_THETA_ZERO_48 : list (Z * Z) := [(15385752874850458, (-16)); (15063542490565458, (-16)); (14741332123980935, (-16)); (14419121784132085, (-16)); (1409691148027974, (-15)); (13774701221991863, (-16)); (13452491019230672, (-16)); (13130280882447114, (-16)); (12808070822684694, (-16)); (12485860851694905, (-16)); (12163650982066991, (-16)); (1184144122737519, (-15)); (11519231602347357, (-16)); (11197022123059641, (-16)); (10874812807162908, (-16)); (105526036741481, (-14)); (10230394745659301, (-16)); (9908186045865675, (-16)); (958597760190632, (-15)); (9263769444426037, (-16)); (8941561608225062, (-16)); (8619354133052818, (-16)); (8297147064584917, (-16)); (7974940455635383, (-16)); (7652734367673509, (-16)); (7330528872739118, (-16)); (7008324055884452, (-16)); (6686120018320298, (-16)); (636391688151575, (-15)); (604171479260729, (-15)); (5719513931632927, (-16)); (5397314521353, (-13)); (5075116840805377, (-16)); (4752921244363892, (-16)); (44307281890955474, (-17)); (41085382749611127, (-17)); (37863523054879983, (-17)); (34641713822001846, (-17)); (3141997056941599, (-16)); (28198315881780467, (-17)); (24976783946196493, (-17)); (217554290921022, (-15)); (18534343159611358, (-17)); (15313694527049704, (-17)); (12093828416782526, (-17)); (8875579450016283, (-17)); (5661593754525191, (-17)); (2466476940450737, (-17))].
(** data.rs:111 *)
Definition ODD_THETA_ZERO_49 : list (Z * Z) := [(15392229300352103, (-16)); (150764953407173, (-14)); (14760761397070326, (-16)); (14445027477565466, (-16)); (14129293590552525, (-16)); (13813559744647215, (-16)); (13497825948806228, (-16)); (13182092212408394, (-16)); (12866358545343575, (-16)); (1255062495811113, (-15)); (12234891461930155, (-16)); (1191915806886406, (-15)); (11603424791962604, (-16)); (112876916454251, (-14)); (10971958644789366, (-16)); (10656225807152007, (-16)); (10340493151426986, (-16)); (1002476069865111, (-15)); (970902847234733, (-15)); (9393296498959608, (-16)); (907756480837697, (-15)); (8761833434569334, (-16)); (8446102416364528, (-16)); (8130371798404961, (-16)); (781464163233484, (-15)); (7498911978285965, (-16)); (7183182906753955, (-16)); (6867454500990592, (-16)); (6551726860086247, (-16)); (6236000102986843, (-16)); (592027437379384, (-15)); (5604549848852622, (-16)); (5288826746375584, (-16)); (4973105339724572, (-16)); (4657385976085971, (-16)); (4341669103277771, (-16)); (4025955309141879, (-16)); (3710245380997234, (-16)); (3394540398171456, (-16)); (30788418812622775, (-17)); (2763152043287541, (-16)); (24474742341895026, (-17)); (2131813777658572, (-16)); (1816179673056091, (-16)); (15005884197211744, (-17)); (11850738459352816, (-17)); (8697177361567243, (-17)); (55477938431281563, (-18)); (2416899936118312, (-17))].
(** data.rs:114 *)
Definition ODD_THETA_ZEROS : list (list (Z * Z)) := [ODD_THETA_ZERO_1; ODD_THETA_ZERO_2; ODD_THETA_ZERO_3; ODD_THETA_ZERO_4; ODD_THETA_ZERO_5; ODD_THETA_ZERO_6; ODD_THETA_ZERO_7; ODD_THETA_ZERO_8; ODD_THETA_ZERO_9; ODD_THETA_ZERO_10; ODD_THETA_ZERO_11; ODD_THETA_ZERO_12; ODD_THETA_ZERO_13; ODD_THETA_ZERO_14; ODD_THETA_ZERO_15; ODD_THETA_ZERO_16; ODD_THETA_ZERO_17; ODD_THETA_ZERO_18; ODD_THETA_ZERO_19; ODD_THETA_ZERO_20; ODD_THETA_ZERO_21; ODD_THETA_ZERO_22; ODD_THETA_ZERO_23; ODD_THETA_ZERO_24; ODD_THETA_ZERO_25; ODD_THETA_ZERO_26; ODD_THETA_ZERO_27; ODD_THETA_ZERO_28; ODD_THETA_ZERO_29; ODD_THETA_ZERO_30; ODD_THETA_ZERO_31; ODD_THETA_ZERO_32; ODD_THETA_ZERO_33; ODD_THETA_ZERO_34; ODD_THETA_ZERO_35; ODD_THETA_ZERO_36; ODD_THETA_ZERO_37; ODD_THETA_ZERO_38; ODD_THETA_ZERO_39; ODD_THETA_ZERO_40; ODD_THETA_ZERO_41; ODD_THETA_ZERO_42; ODD_THETA_ZERO_43; ODD_THETA_ZERO_44; ODD_THETA_ZERO_45; ODD_THETA_ZERO_46; ODD_THETA_ZERO_47; ODD_THETA_ZERO_48; ODD_THETA_ZERO_49].
(** data.rs:116 *)
Definition EVEN_THETA_ZEROS : list (list (Z * Z)) := [EVEN_THETA_ZERO_1; EVEN_THETA_ZERO_2; EVEN_THETA_ZERO_3; EVEN_THETA_ZERO_4; EVEN_THETA_ZERO_5; EVEN_THETA_ZERO_6; EVEN_THETA_ZERO_7; EVEN_THETA_ZERO_8; EVEN_THETA_ZERO_9; EVEN_THETA_ZERO_10; EVEN_THETA_ZERO_11; EVEN_THETA_ZERO_12; EVEN_THETA_ZERO_13; EVEN_THETA_ZERO_14; EVEN_THETA_ZERO_15; EVEN_THETA_ZERO_16; EVEN_THETA_ZERO_17; EVEN_THETA_ZERO_18; EVEN_THETA_ZERO_19; EVEN_THETA_ZERO_20; EVEN_THETA_ZERO_21; EVEN_THETA_ZERO_22; EVEN_THETA_ZERO_23; EVEN_THETA_ZERO_24; EVEN_THETA_ZERO_25; EVEN_THETA_ZERO_26; EVEN_THETA_ZERO_27; EVEN_THETA_ZERO_28; EVEN_THETA_ZERO_29; EVEN_THETA_ZERO_30; EVEN_THETA_ZERO_31; EVEN_THETA_ZERO_32; EVEN_THETA_ZERO_33; EVEN_THETA_ZERO_34; EVEN_THETA_ZERO_35; EVEN_THETA_ZERO_36; EVEN_THETA_ZERO_37; EVEN_THETA_ZERO_38; EVEN_THETA_ZERO_39; EVEN_THETA_ZERO_40; EVEN_THETA_ZERO_41; EVEN_THETA_ZERO_42; EVEN_THETA_ZERO_43; EVEN_THETA_ZERO_44; EVEN_THETA_ZERO_45; EVEN_THETA_ZERO_46; EVEN_THETA_ZERO_47; EVEN_THETA_ZERO_48; EVEN_THETA_ZERO_49; EVEN_THETA_ZERO_50].
(** data.rs:119 *)
Definition EVEN_W_1 : list (Z * Z) := [(10, (-1))].
(** data.rs:120 *)
Definition EVEN_W_2 : list (Z * Z) := [(6521451548625461, (-16)); (34785484513745385, (-17))].
(** data.rs:121 *)
Definition EVEN_W_3 : list (Z * Z) := [(46791393457269104, (-17)); (3607615730481386, (-16)); (17132449237917036, (-17))].
(** data.rs:122 *)
Definition EVEN_W_4 : list (Z * Z) := [(362683783378362, (-15)); (31370664587788727, (-17)); (22238103445337448, (-17)); (10122853629037626, (-17))].
(** data.rs:123 *)
Definition EVEN_W_5 : list (Z * Z) := [(29552422471475287, (-17)); (26926671930999635, (-17)); (21908636251598204, (-17)); (1494513491505806, (-16)); (6667134430868814, (-17))].
(** data.rs:124 *)
Definition EVEN_W_6 : list (Z * Z) := [(24914704581340277, (-17)); (2334925365383548, (-16)); (20316742672306592, (-17)); (16007832854334622, (-17)); (10693932599531843, (-17)); (4717533638651183, (-17))].
(** data.rs:125 *)
Definition EVEN_W_7 : list (Z * Z) := [(2152638534631578, (-16)); (2051984637212956, (-16)); (18553839747793782, (-17)); (15720316715819355, (-17)); (12151857068790319, (-17)); (8015808715976021, (-17)); (3511946033175186, (-17))].
(** data.rs:126 *)
Definition EVEN_W_8 : list (Z * Z) := [(1894506104550685, (-16)); (18260341504492358, (-17)); (16915651939500254, (-17)); (14959598881657674, (-17)); (12462897125553388, (-17)); (9515851168249279, (-17)); (62253523938647894, (-18)); (27152459411754096, (-18))].
(** data.rs:127 *)
Definition EVEN_W_9 : list (Z * Z) := [(1691423829631436, (-16)); (16427648374583273, (-17)); (15468467512626524, (-17)); (14064291467065065, (-17)); (12255520671147846, (-17)); (10094204410628717, (-17)); (7642573025488905, (-17)); (497145488949698, (-16)); (2161601352648331, (-17))].
(** data.rs:128 *)
Definition EVEN_W_10 : list (Z * Z) := [(15275338713072584, (-17)); (14917298647260374, (-17)); (14209610931838204, (-17)); (13168863844917664, (-17)); (11819453196151841, (-17)); (10193011981724044, (-17)); (8327674157670475, (-17)); (6267204833410907, (-17)); (4060142980038694, (-17)); (17614007139152118, (-18))].
(** data.rs:129 *)
Definition EVEN_W_11 : list (Z * Z) := [(13925187285563198, (-17)); (13654149834601517, (-17)); (13117350478706238, (-17)); (12325237681051242, (-17)); (11293229608053922, (-17)); (10041414444288096, (-17)); (8594160621706773, (-17)); (6979646842452049, (-17)); (52293335152683286, (-18)); (3377490158481415, (-17)); (146279952982722, (-16))].
(** data.rs:130 *)
Definition EVEN_W_12 : list (Z * Z) := [(12793819534675216, (-17)); (1258374563468283, (-16)); (12167047292780339, (-17)); (1155056680537256, (-16)); (10744427011596563, (-17)); (9761865210411388, (-17)); (8619016153195327, (-17)); (733464814110803, (-16)); (5929858491543678, (-17)); (4427743881741981, (-17)); (28531388628933663, (-18)); (123412297999872, (-16))].
(** data.rs:131 *)
Definition EVEN_W_13 : list (Z * Z) := [(11832141527926228, (-17)); (11666044348529658, (-17)); (11336181654631966, (-17)); (10847184052857659, (-17)); (10205916109442542, (-17)); (9421380035591415, (-17)); (8504589431348523, (-17)); (7468414976565975, (-17)); (6327404632957484, (-17)); (5097582529714781, (-17)); (37962383294362766, (-18)); (2441785109263191, (-17)); (10551372617343006, (-18))].
(** data.rs:132 *)
Definition EVEN_W_14 : list (Z * Z) := [(1100470130164752, (-16)); (10871119225829413, (-17)); (10605576592284642, (-17)); (10211296757806076, (-17)); (9693065799792992, (-17)); (9057174439303284, (-17)); (8311341722890121, (-17)); (7464621423456878, (-17)); (652729239669996, (-16)); (5510734567571675, (-17)); (4427293475900423, (-17)); (3290142778230438, (-17)); (2113211259277126, (-17)); (9124282593094517, (-18))].
(** data.rs:133 *)
Definition EVEN_W_15 : list (Z * Z) := [(10285265289355884, (-17)); (1017623897484055, (-16)); (9959342058679527, (-17)); (9636873717464425, (-17)); (9212252223778612, (-17)); (8689978720108298, (-17)); (8075589522942021, (-17)); (737559747377052, (-16)); (6597422988218049, (-17)); (57493156217619065, (-18)); (4840267283059405, (-17)); (3879919256962705, (-17)); (2878470788332337, (-17)); (1846646831109096, (-17)); (7968192496166605, (-18))].
(** data.rs:134 *)
Definition EVEN_W_16 : list (Z * Z) := [(965400885147278, (-16)); (9563872007927486, (-17)); (9384439908080457, (-17)); (9117387869576389, (-17)); (8765209300440381, (-17)); (8331192422694675, (-17)); (7819389578707031, (-17)); (723457941088485, (-16)); (6582222277636185, (-17)); (58684093478535544, (-18)); (50998059262376175, (-18)); (4283589802222668, (-17)); (3427386291302143, (-17)); (2539206530926206, (-17)); (1627439473090567, (-17)); (7018610009470096, (-18))].
(** data.rs:135 *)
Definition EVEN_W_17 : list (Z * Z) := [(9095674033025987, (-17)); (9020304437064074, (-17)); (8870189783569386, (-17)); (8646573974703575, (-17)); (8351309969984566, (-17)); (7986844433977185, (-17)); (7556197466003194, (-17)); (7062937581425573, (-17)); (6511152155407642, (-17)); (59054135827524494, (-18)); (5250741457267811, (-17)); (4552561152335327, (-17)); (3816659379638752, (-17)); (3049138063844613, (-17)); (2256372198549497, (-17)); (14450162748595036, (-18)); (6229140555908685, (-18))].
(** data.rs:136 *)
Definition EVEN_W_18 : list (Z * Z) := [(8598327567039475, (-17)); (8534668573933862, (-17)); (8407821897966193, (-17)); (821872667043397, (-16)); (796878289120716, (-16)); (7659841064587067, (-17)); (7294188500565306, (-17)); (6874532383573645, (-17)); (6403979735501548, (-17)); (5886014424532482, (-17)); (5324471397775992, (-17)); (4723508349026598, (-17)); (4087575092364489, (-17)); (3421381077030723, (-17)); (2729862149856878, (-17)); (20181515297735472, (-18)); (12915947284065574, (-18)); (55657196642450455, (-19))].
(** data.rs:137 *)
Definition EVEN_W_19 : list (Z * Z) := [(8152502928038578, (-17)); (809824937705971, (-16)); (7990103324352782, (-17)); (7828784465821095, (-17)); (761536635484464, (-16)); (7351269258474345, (-17)); (7038250706689896, (-17)); (6678393797914041, (-17)); (6274093339213306, (-17)); (582803991469972, (-16)); (5343201991033232, (-17)); (4822806186075868, (-17)); (4270315850467443, (-17)); (3689408159402474, (-17)); (30839500545175053, (-18)); (24579739738232374, (-18)); (18156577709613236, (-18)); (11613444716468675, (-18)); (5002880749639346, (-18))].
(** data.rs:138 *)
Definition EVEN_W_20 : list (Z * Z) := [(775059479784248, (-16)); (7703981816424797, (-17)); (7611036190062624, (-17)); (7472316905796826, (-17)); (7288658239580406, (-17)); (7061164739128678, (-17)); (679120458152339, (-16)); (6480401345660104, (-17)); (6130624249292894, (-17)); (5743976909939155, (-17)); (5322784698393682, (-17)); (4869580763507223, (-17)); (4387090818567327, (-17)); (38782167974472016, (-18)); (33460195282547844, (-18)); (279370069800234, (-16)); (2224584919416696, (-17)); (1642105838190789, (-17)); (10498284531152813, (-18)); (4521277098533191, (-18))].
(** data.rs:139 *)
Definition EVEN_W_21 : list (Z * Z) := [(7386423423217288, (-17)); (7346081345346753, (-17)); (726561752438041, (-16)); (7145471426517098, (-17)); (6986299249259416, (-17)); (6788970337652195, (-17)); (6554562436490897, (-17)); (6284355804500258, (-17)); (59798262227586656, (-18)); (5642636935801838, (-17)); (5274629569917407, (-17)); (48778140792803244, (-18)); (4454357777196588, (-17)); (40065735180692265, (-18)); (3536907109759211, (-17)); (30479240699603467, (-18)); (25422959526113047, (-18)); (20227869569052644, (-18)); (14922443697357493, (-18)); (9536220301748503, (-18)); (4105998604649085, (-18))].
(** data.rs:140 *)
Definition EVEN_W_22 : list (Z * Z) := [(7054915778935407, (-17)); (7019768547355822, (-17)); (6949649186157258, (-17)); (6844907026936665, (-17)); (6706063890629366, (-17)); (6533811487918144, (-17)); (6329007973320386, (-17)); (6092673670156197, (-17)); (5825985987759549, (-17)); (55302735563728056, (-18)); (5207009609170446, (-17)); (48578046448352036, (-18)); (4484398408197003, (-17)); (4088651231034622, (-17)); (3672534781380887, (-17)); (3238122281206982, (-17)); (2787578282128101, (-17)); (2323148190201921, (-17)); (1847148173681475, (-17)); (13619586755579985, (-18)); (8700481367524843, (-18)); (37454048031127776, (-19))].
(** data.rs:141 *)
Definition EVEN_W_23 : list (Z * Z) := [(6751868584903646, (-17)); (6721061360067818, (-17)); (6659587476845488, (-17)); (6567727426778121, (-17)); (6445900346713906, (-17)); (6294662106439451, (-17)); (6114702772465048, (-17)); (5906843459554632, (-17)); (5672032584399123, (-17)); (54113415385856754, (-18)); (5125959800714302, (-17)); (481718951017122, (-16)); (4486439527731813, (-17)); (4135219010967873, (-17)); (3765130535738607, (-17)); (337786279991069, (-16)); (29751829552202756, (-18)); (25589286397130012, (-18)); (213099987541365, (-16)); (1693351400783624, (-17)); (12479883770988685, (-18)); (7969898229724623, (-18)); (34303008681070483, (-19))].
(** data.rs:142 *)
Definition EVEN_W_24 : list (Z * Z) := [(6473769681268392, (-17)); (6446616443595009, (-17)); (6392423858464819, (-17)); (6311419228625402, (-17)); (62039423159892665, (-18)); (6070443916589388, (-17)); (59114839698395635, (-18)); (57277292100403214, (-18)); (55199503699984165, (-18)); (5289018948519367, (-17)); (5035903555385447, (-17)); (4761665849249048, (-17)); (4467456085669428, (-17)); (4154508294346475, (-17)); (3824135106583071, (-17)); (3477722256477044, (-17)); (3116722783279809, (-17)); (27426509708356948, (-18)); (2357076083932438, (-17)); (1961616045735553, (-17)); (15579315722943849, (-18)); (1147723457923454, (-17)); (73275539012762625, (-19)); (31533460523058385, (-19))].
(** data.rs:143 *)
Definition EVEN_W_25 : list (Z * Z) := [(6217661665534726, (-17)); (6193606742068324, (-17)); (61455899590316665, (-18)); (6073797084177022, (-17)); (5978505870426546, (-17)); (58600849813222444, (-18)); (5718992564772838, (-17)); (5555774480621252, (-17)); (53710621888996245, (-18)); (5165570306958114, (-17)); (4940093844946632, (-17)); (46955051303948434, (-18)); (44327504338803274, (-18)); (41528463090147696, (-18)); (3856875661258768, (-17)); (3545983561514615, (-17)); (32213728223578014, (-18)); (28842993580535197, (-18)); (2536067357001239, (-17)); (21780243170124794, (-18)); (18115560713489392, (-18)); (14380822761485574, (-18)); (10590548383650969, (-18)); (6759799195745401, (-18)); (2908622553155141, (-18))].
(** data.rs:144 *)
Definition EVEN_W_26 : list (Z * Z) := [(5981036574529186, (-17)); (5959626017124816, (-17)); (5916881546604297, (-17)); (5852956177181387, (-17)); (57680787452526826, (-18)); (566255309023686, (-16)); (5536756966930265, (-17)); (5391140693275726, (-17)); (5226225538390699, (-17)); (5042601856634238, (-17)); (484092697440749, (-16)); (4621922837278479, (-17)); (43863734259000406, (-18)); (4135121950056027, (-17)); (3869067831042398, (-17)); (3589163483509723, (-17)); (329641090897188, (-16)); (29918581147143946, (-18)); (26765953746504013, (-18)); (23517513553984463, (-18)); (20184891507980793, (-18)); (16780023396300737, (-18)); (13315114982340961, (-18)); (9802634579462751, (-18)); (6255523962973277, (-18)); (26913169500471113, (-19))].
(** data.rs:145 *)
Definition EVEN_W_27 : list (Z * Z) := [(57617536707147025, (-18)); (5742613705411211, (-17)); (570439735587946, (-16)); (56472315730625965, (-18)); (55713062560589985, (-18)); (54768736213057986, (-18)); (5364247364755361, (-17)); (5233801619829875, (-17)); (5085969714618815, (-17)); (49212427324528886, (-18)); (4740167880644499, (-17)); (45433466728276715, (-18)); (4331432930959701, (-17)); (41051306136644976, (-18)); (3865191478210252, (-17)); (36124125840383554, (-18)); (3347633646437265, (-17)); (30717342497870677, (-18)); (2785630931059587, (-17)); (24902741467208774, (-18)); (21866451422853084, (-18)); (1875752762146938, (-17)); (15586303035924131, (-18)); (12363328128847644, (-18)); (9099369455509397, (-18)); (5805611015239985, (-18)); (2497481835761586, (-18))].
(** data.rs:146 *)
Definition EVEN_W_28 : list (Z * Z) := [(55579746306514397, (-18)); (5540795250324512, (-17)); (55064895901762424, (-18)); (54551636870889424, (-18)); (5386976186571449, (-17)); (53021378524010766, (-18)); (520091091517414, (-16)); (50836082617798484, (-18)); (4950592468304758, (-17)); (4802274679360026, (-17)); (46391133373001894, (-18)); (4461612765269228, (-17)); (4270321608466709, (-17)); (4065831138474452, (-17)); (3848773425924766, (-17)); (3619819387231519, (-17)); (3379676711561176, (-17)); (31290876747310445, (-18)); (2868826847382274, (-17)); (25996987058391954, (-18)); (23225351562565315, (-18)); (2038192988240257, (-17)); (17475512911400946, (-18)); (14515089278021472, (-18)); (11509824340383383, (-18)); (8469063163307887, (-18)); (5402522246015338, (-18)); (23238553757732156, (-19))].
(** data.rs:147 *)
Definition EVEN_W_29 : list (Z * Z) := [(5368111986333485, (-17)); (53526343304058255, (-18)); (5321723644657901, (-17)); (52754690526370836, (-18)); (5214003918366982, (-17)); (51375054618285725, (-18)); (5046194247995313, (-17)); (4940333550896239, (-17)); (4820228594541775, (-17)); (46862256729026344, (-18)); (45387111514819806, (-18)); (4378110353364025, (-17)); (42048863329582124, (-18)); (401953854098678, (-16)); (38226013845858435, (-18)); (3614642686708727, (-17)); (3396262049341601, (-17)); (3168089125380933, (-17)); (2930781804416049, (-17)); (2685024318198187, (-17)); (24315252724963952, (-18)); (21710156140146236, (-18)); (19042465461893407, (-18)); (16319874234970964, (-18)); (13550237112988812, (-18)); (10741553532878773, (-18)); (7901973849998675, (-18)); (5039981612650243, (-18)); (216772324962745, (-17))].
(** data.rs:148 *)
Definition EVEN_W_30 : list (Z * Z) := [(51907877631220636, (-18)); (5176794317491019, (-17)); (51488451500980935, (-18)); (5107015606985563, (-17)); (50514184532509374, (-18)); (4982203569055018, (-17)); (48995575455756835, (-18)); (4803703181997118, (-17)); (469489888489122, (-16)); (45734379716114486, (-18)); (4439647879578711, (-17)); (4293889283593564, (-17)); (41365551235584753, (-18)); (396806954523808, (-16)); (37888867569243444, (-18)); (359948980510845, (-16)); (3400389272494642, (-17)); (3192121901929633, (-17)); (29752491500788944, (-18)); (2750355674992479, (-17)); (25180477621521247, (-18)); (2278951694399782, (-17)); (20337120729457286, (-18)); (1782990101420772, (-17)); (15274618596784799, (-18)); (1267816647681596, (-17)); (10047557182287984, (-18)); (7389931163345456, (-18)); (4712729926953568, (-18)); (20268119688737585, (-19))].
(** data.rs:149 *)
Definition EVEN_W_31 : list (Z * Z) := [(5024800037525628, (-17)); (5012106956904329, (-17)); (49867528594952394, (-18)); (4948801791969929, (-17)); (48983496220517835, (-18)); (48355237963477675, (-18)); (47604830184101235, (-18)); (4673416847841552, (-17)); (4574545221457018, (-17)); (4464117897712441, (-17)); (4342413825804742, (-17)); (420974044103851, (-16)); (40664328882417444, (-18)); (3912853175196308, (-17)); (3749389258228003, (-17)); (3576454062276814, (-17)); (33944844379410546, (-18)); (3203940058162468, (-17)); (3005302257398987, (-17)); (2799072816331464, (-17)); (25857726954024697, (-18)); (23659407208682794, (-18)); (21401322277669967, (-18)); (190891766585732, (-16)); (16728811790177316, (-18)); (14326191823806518, (-18)); (11887390117010501, (-18)); (9418579428420388, (-18)); (6926041901830961, (-18)); (4416333456930905, (-18)); (18992056795136905, (-19))].
(** data.rs:150 *)
Definition EVEN_W_32 : list (Z * Z) := [(48690957009139724, (-18)); (4857546744150343, (-17)); (48344762234802954, (-18)); (4799938859645831, (-17)); (4754016571483031, (-17)); (4696818281621002, (-17)); (46284796581314416, (-18)); (4549162792741814, (-17)); (44590558163756566, (-18)); (4358372452932345, (-17)); (4247351512365359, (-17)); (4126256324262353, (-17)); (3995374113272034, (-17)); (38550153178615626, (-18)); (3705512854024005, (-17)); (35472213256882386, (-18)); (33805161837141606, (-18)); (3205792835485155, (-17)); (30234657072402478, (-18)); (28339672614259483, (-18)); (2637746971505466, (-17)); (24352702568710874, (-18)); (22270173808383253, (-18)); (2013482315353021, (-17)); (17951715775697343, (-18)); (15726030476024718, (-18)); (13463047896718643, (-18)); (11168139460131128, (-18)); (8846759826363947, (-18)); (6504457968978363, (-18)); (4147033260562468, (-18)); (1783280721696433, (-18))].
(** data.rs:151 *)
Definition EVEN_W_33 : list (Z * Z) := [(47227481262998555, (-18)); (47122098287644736, (-18)); (4691156748762083, (-17)); (46596358639584105, (-18)); (46177175097915975, (-18)); (45654952225273056, (-18)); (450308553054415, (-16)); (44306276943153165, (-18)); (4348283395666748, (-17)); (4256236377005572, (-17)); (4154692031324188, (-17)); (40438769438954976, (-18)); (3924038386682833, (-17)); (3795443766594162, (-17)); (36583800288139096, (-18)); (3513153016547255, (-17)); (3360086788611223, (-17)); (31995228964046885, (-18)); (3031819621886852, (-17)); (2857351178293187, (-17)); (26765068754250002, (-18)); (24896902514757374, (-18)); (22973181735326656, (-18)); (20998199091864626, (-18)); (18976361722771326, (-18)); (16912181472245217, (-18)); (1481026500273396, (-17)); (12675303981261682, (-18)); (10512065987705755, (-18)); (8325388765990902, (-18)); (6120192018447937, (-18)); (3901625641744248, (-18)); (16776537440072385, (-19))].
(** data.rs:152 *)
Definition EVEN_W_34 : list (Z * Z) := [(4584938738725097, (-17)); (4575296541606795, (-17)); (45560324250648286, (-18)); (4527186901844378, (-17)); (44888206345426666, (-18)); (4441014308035276, (-17)); (4383868459795605, (-17)); (43175032684644225, (-18)); (424205830111425, (-16)); (41576922197402916, (-18)); (4064582447595408, (-17)); (3962924796071231, (-17)); (3852933052910672, (-17)); (37348385326186666, (-18)); (3608889590017987, (-17)); (3475351097975151, (-17)); (3334503890398069, (-17)); (3186644171682106, (-17)); (3032082893855398, (-17)); (28711451027484992, (-18)); (2704169254590396, (-17)); (253150650451764, (-16)); (23535199685876335, (-18)); (2170583961037808, (-17)); (19830832087955497, (-18)); (17914120457923153, (-18)); (159597359096138, (-16)); (13971789174457655, (-18)); (11954462319769443, (-18)); (9912001251585938, (-18)); (7848711393177167, (-18)); (5768969918729952, (-18)); (36773665950117305, (-19)); (1581140256372913, (-18))].
(** data.rs:153 *)
Definition EVEN_W_35 : list (Z * Z) := [(4454941715975467, (-17)); (4446096841724637, (-17)); (44284246539055404, (-18)); (4401960239018346, (-17)); (4366756139720144, (-17)); (432288225050687, (-16)); (4270425678944978, (-17)); (4209490572728441, (-17)); (4140197912904521, (-17)); (4062685273678961, (-17)); (3977106549277657, (-17)); (388363164840734, (-16)); (3782446156922282, (-17)); (367375096936727, (-16)); (3557761890129238, (-17)); (3434709204990654, (-17)); (3304837223937242, (-17)); (3168403796130848, (-17)); (30256797980154237, (-18)); (2876948595580828, (-17)); (27225054818664416, (-18)); (25626570908468482, (-18)); (23977207889100294, (-18)); (22280240452256597, (-18)); (20539037824326454, (-18)); (1875705709313342, (-17)); (1693783637630293, (-17)); (15084987865443128, (-18)); (13202190814676747, (-18)); (11293184649931537, (-18)); (9361762769699028, (-18)); (741176936319021, (-17)); (5447111874217219, (-18)); (34718948930781432, (-19)); (14927212888445158, (-19))].
(** data.rs:154 *)
Definition EVEN_W_36 : list (Z * Z) := [(43321112165486536, (-18)); (43239781305222616, (-18)); (430772722749137, (-16)); (42833890168338815, (-18)); (42510091910057723, (-18)); (4210648539758646, (-17)); (416238283601386, (-16)); (4106302693607506, (-17)); (4042513397173397, (-17)); (397113470448349, (-16)); (3892300621616966, (-17)); (38061591513802166, (-18)); (371287201545029, (-16)); (36126143507637994, (-18)); (3505574380721787, (-17)); (3391953061828606, (-17)); (32719637064293844, (-18)); (3145831582256181, (-17)); (3013793489537548, (-17)); (2876097316470176, (-17)); (27330015738950934, (-18)); (2584774910065589, (-17)); (24316956064419165, (-18)); (22740510555035755, (-18)); (21121372216440552, (-18)); (19462580863294277, (-18)); (17767250789200655, (-18)); (16038564950285154, (-18)); (14279769054554194, (-18)); (12494165619873758, (-18)); (10685108165351898, (-18)); (8855996073706154, (-18)); (7010272321861863, (-18)); (5151436018790887, (-18)); (3283169774667496, (-18)); (14115163939734342, (-19))].
(** data.rs:155 *)
Definition EVEN_W_37 : list (Z * Z) := [(4215870660994342, (-17)); (42083749969156974, (-18)); (4193396995777702, (-17)); (4170963287924075, (-17)); (4141113759675351, (-17)); (41039014824127265, (-18)); (4059392618219473, (-17)); (4007666302247697, (-17)); (3948814502019647, (-17)); (3882941853913771, (-17)); (38101654771263246, (-18)); (37306147654394155, (-18)); (3644431157165857, (-17)); (3551767883680096, (-17)); (3452789696982646, (-17)); (33476725767828765, (-18)); (32366034176217, (-15)); (31197796965915427, (-18)); (29974091222461186, (-18)); (28697092653269876, (-18)); (27369071719679353, (-18)); (25992389600723788, (-18)); (24569493995942767, (-18)); (23102914774915825, (-18)); (2159525948167589, (-17)); (20049208702794943, (-18)); (1846751130897988, (-17)); (16852979582024852, (-18)); (15208484243401234, (-18)); (13536949411787494, (-18)); (11841347547499667, (-18)); (10124694538287305, (-18)); (8390045433971398, (-18)); (6640492909114358, (-18)); (4879179758594145, (-18)); (31094201498967546, (-19)); (13367616500698835, (-19))].
(** data.rs:156 *)
Definition EVEN_W_38 : list (Z * Z) := [(41057036916229424, (-18)); (4098780546479395, (-17)); (4084945930182849, (-17)); (4064223171029474, (-17)); (4036647212284402, (-17)); (4002264553259682, (-17)); (3961133170906206, (-17)); (3913322422051844, (-17)); (38589129264506736, (-18)); (37979964308405285, (-18)); (3730675654238161, (-17)); (36570641147329615, (-18)); (3577285938071395, (-17)); (3491475648355077, (-17)); (3399777941205638, (-17)); (3302347439779174, (-17)); (319934843404216, (-16)); (30909546037491596, (-18)); (2977348725590504, (-17)); (28587223650054002, (-18)); (27352755531827522, (-18)); (26072164497985984, (-18)); (2474760992065967, (-17)); (23381325307011185, (-18)); (2197561453441625, (-17)); (2053284796790802, (-17)); (19055458467190582, (-18)); (1754593729147423, (-17)); (16006829912248572, (-18)); (1444073174827668, (-17)); (12850283847510144, (-18)); (11238168569667688, (-18)); (9607105414713754, (-18)); (7959847477239735, (-18)); (62991804973284455, (-19)); (4627935228037421, (-18)); (29491029536424748, (-19)); (12677916340853596, (-19))].
(** data.rs:157 *)
Definition EVEN_W_39 : list (Z * Z) := [(40011465118420485, (-18)); (3994739036908802, (-17)); (3981934348036409, (-17)); (39627529507810545, (-18)); (39372255624233125, (-18)); (3905393062777341, (-17)); (38673064287257676, (-18)); (3823026652585099, (-17)); (3772624644432425, (-17)); (37161811185498383, (-18)); (365378646416847, (-16)); (358554060071917, (-16)); (3511552817821719, (-17)); (3431941600268909, (-17)); (3346834438285898, (-17)); (3256367623368905, (-17)); (31606860300304795, (-18)); (30599428838013046, (-18)); (29542995158606946, (-18)); (28439251046897516, (-18)); (27289964051624364, (-18)); (26096974655108834, (-18)); (2486219332622245, (-17)); (2358759746145747, (-17)); (22275228219113888, (-18)); (20927187251877727, (-18)); (19545633343399923, (-18)); (18132778954982328, (-18)); (16690886689343893, (-18)); (15222265680178452, (-18)); (13729267920144148, (-18)); (12214284549789886, (-18)); (10679742157481114, (-18)); (9128099227255087, (-18)); (7561843189439719, (-18)); (5983489944440408, (-18)); (4395596039460346, (-18)); (28008688118386304, (-19)); (12040245660673533, (-19))].
(** data.rs:158 *)
Definition EVEN_W_40 : list (Z * Z) := [(3901781365630665, (-17)); (3895839596276953, (-17)); (3883965105905197, (-17)); (38661759774076467, (-18)); (38424993006959424, (-18)); (38129711314477635, (-18)); (377763643620014, (-16)); (3736549023873049, (-17)); (3689771463827601, (-17)); (3637374990583598, (-17)); (35794393953416055, (-18)); (3516052904474759, (-17)); (3447312045175393, (-17)); (3373321498461152, (-17)); (329419393976454, (-16)); (3210049867348777, (-17)); (312101741881147, (-16)); (3027232175955798, (-17)); (2928836958326785, (-17)); (28259816057276864, (-18)); (2718822750048638, (-17)); (26075235767565118, (-18)); (24922535764115492, (-18)); (237318828659301, (-16)); (22505090246332463, (-18)); (21244026115782005, (-18)); (19950610878142, (-15)); (18626814208299033, (-18)); (17274652056269307, (-18)); (15896183583725687, (-18)); (14493508040509076, (-18)); (1306876159240134, (-17)); (11624114120797826, (-18)); (10161766041103065, (-18)); (8683945269260859, (-18)); (7192904768117313, (-18)); (5690922451403199, (-18)); (4180313124694896, (-18)); (26635335895126818, (-19)); (11449500031869414, (-19))].
(** data.rs:159 *)
Definition EVEN_W_41 : list (Z * Z) := [(3807230964014187, (-17)); (3801710843143527, (-17)); (37906786050505785, (-18)); (3774150245427587, (-17)); (3752149728818502, (-17)); (37247089538727664, (-18)); (36918677070954455, (-18)); (36536736051607656, (-18)); (36101820258727026, (-18)); (35614560278727475, (-18)); (3507566259211269, (-17)); (3448590854915071, (-17)); (33846153236996857, (-18)); (33157324239907214, (-18)); (32420420294340606, (-18)); (31636509840900245, (-18)); (3080672947521563, (-17)); (29932282300012724, (-18)); (29014436180764405, (-18)); (2805452190745423, (-17)); (27053931265124773, (-18)); (26014115016017025, (-18)); (24936580796240754, (-18)); (23822890930047826, (-18)); (22674660164914102, (-18)); (21493553330774844, (-18)); (2028128292691216, (-17)); (19039606640178924, (-18)); (17770324798498407, (-18)); (1647527776398371, (-17)); (15156343270762563, (-18)); (1381543371412646, (-17)); (12454493401142104, (-18)); (11075495781759896, (-18)); (9680440704371074, (-18)); (8271351818383685, (-18)); (6850274534183526, (-18)); (5419276232446765, (-18)); (3980457937856075, (-18)); (2536054696856106, (-18)); (1090118595275831, (-18))].
(** data.rs:160 *)
Definition EVEN_W_42 : list (Z * Z) := [(3717153701903407, (-17)); (3712016261260209, (-17)); (3701748480379452, (-17)); (3686364550259031, (-17)); (3665885732875908, (-17)); (36403403318002125, (-18)); (3609763653077257, (-17)); (3574197956431531, (-17)); (35336923968601275, (-18)); (34883029566963306, (-18)); (343809236823727, (-16)); (3383130027042598, (-17)); (33234918960240445, (-18)); (32592604004584254, (-18)); (3190524314069273, (-17)); (3117378636334566, (-17)); (3039924461190247, (-17)); (29582688373110844, (-18)); (28725246201621802, (-18)); (27828103160258407, (-18)); (2689249918219764, (-17)); (25919727357334648, (-18)); (2491113214520643, (-17)); (2386810751695824, (-17)); (2279209502894213, (-17)); (2168458183064482, (-17)); (2054709860975628, (-17)); (1938121747731881, (-17)); (1818854979605655, (-17)); (1697074395521161, (-17)); (157294830955836, (-16)); (14466482789161187, (-18)); (13183488679182346, (-18)); (11882274089801224, (-18)); (10564637623008246, (-18)); (9232400784190247, (-18)); (7887405752648147, (-18)); (6531513687713654, (-18)); (51666051827468085, (-19)); (379459165045235, (-17)); (2417511265443123, (-18)); (1039133516451972, (-18))].
(** data.rs:161 *)
Definition EVEN_W_43 : list (Z * Z) := [(36312395375813336, (-18)); (36264502084202385, (-18)); (3616877866860064, (-17)); (3602535138093526, (-17)); (35834409390924055, (-18)); (355962045365755, (-16)); (3531105099203421, (-17)); (349793248532101, (-16)); (3460146364173769, (-17)); (341779657279199, (-16)); (3370938967341756, (-17)); (331963534945516, (-16)); (3263953384718992, (-17)); (32039665134294015, (-18)); (31397538537302865, (-18)); (30714000972632053, (-18)); (29989953974664932, (-18)); (29226352506709945, (-18)); (28424203701493494, (-18)); (27584565532851248, (-18)); (2670854542037221, (-17)); (25797298768839537, (-18)); (24852027444399835, (-18)); (23873978189479006, (-18)); (22864440978548006, (-18)); (2182474731692763, (-17)); (20756268484909142, (-18)); (1966041372956218, (-17)); (18538628406709858, (-18)); (17392392075690544, (-18)); (1622321654972902, (-17)); (15032643905081378, (-18)); (1382224445276667, (-17)); (12593614678069697, (-18)); (11348375156177704, (-18)); (10088168460386106, (-18)); (8814657101954816, (-18)); (7529521612194562, (-18)); (6234459139140123, (-18)); (4931184096960104, (-18)); (36214392496109016, (-19)); (2307087488809903, (-18)); (9916432666203635, (-19))].
(** data.rs:162 *)
Definition EVEN_W_44 : list (Z * Z) := [(35492064301714546, (-18)); (3544734460447077, (-17)); (35357961556423845, (-18)); (35224027779459106, (-18)); (35045712029004264, (-18)); (3482323898139936, (-17)); (3455688895080709, (-17)); (3424699753602008, (-17)); (3389395519761026, (-17)); (33498206765953095, (-18)); (330602508807467, (-16)); (3258063936273211, (-17)); (3205997651840639, (-17)); (3149891837860489, (-17)); (30898171871912197, (-18)); (30258493933943524, (-18)); (29580690553619348, (-18)); (2886561575763543, (-17)); (28114170534408612, (-18)); (2732730169885533, (-17)); (26506000699434738, (-18)); (2565130236896195, (-17)); (24764283620768733, (-18)); (2384606209185966, (-17)); (2289779473478114, (-17)); (21920676359989854, (-18)); (20915938130576624, (-18)); (19884846011274115, (-18)); (18828699173755452, (-18)); (17748828360324074, (-18)); (16646594208217656, (-18)); (15523385536933554, (-18)); (14380617601299944, (-18)); (13219730313627913, (-18)); (12042186439581212, (-18)); (10849469775429272, (-18)); (9643083322053204, (-18)); (8424547492702474, (-18)); (7195398459796372, (-18)); (5957186996138047, (-18)); (4711479279598662, (-18)); (34598676678627965, (-19)); (22040585631436967, (-19)); (9473355981619273, (-19))].
(** data.rs:163 *)
Definition EVEN_W_45 : list (Z * Z) := [(3470797248895006, (-17)); (3466615208568824, (-17)); (3458256166949689, (-17)); (3445730196032425, (-17)); (3429052388637504, (-17)); (34082428402254, (-15)); (3383326624683169, (-17)); (3354333764112428, (-17)); (3321299192655132, (-17)); (3284262714400751, (-17)); (32432689554255614, (-18)); (31983673100218574, (-18)); (3149611881181864, (-17)); (30970614154080922, (-18)); (30407792319286954, (-18)); (29808331464031276, (-18)); (29172953892100742, (-18)); (28502425184161417, (-18)); (27797553275302277, (-18)); (2705918748154796, (-17)); (26288217476514587, (-18)); (2548557221944323, (-17)); (24652218835904852, (-18)); (23789161452528722, (-18)); (22897439987163183, (-18)); (21978128895934135, (-18)); (21032335878722563, (-18)); (20061200544639595, (-18)); (1906589303913732, (-17)); (18047612634460235, (-18)); (17007586285222677, (-18)); (1594706715100664, (-17)); (14867333088043324, (-18)); (13769685112337093, (-18)); (1265544583716813, (-17)); (11525957889148059, (-18)); (10382582309893215, (-18)); (9226696957741991, (-18)); (8059694944620015, (-18)); (68829832084632845, (-19)); (5697981560747353, (-18)); (4506123613674978, (-18)); (3308867243336018, (-18)); (210777877452633, (-17)); (9059323712148331, (-19))].
(** data.rs:164 *)
Definition EVEN_W_46 : list (Z * Z) := [(3395777082810235, (-17)); (3391860442372255, (-17)); (338403167889336, (-16)); (3372299821957387, (-17)); (33566784029203676, (-18)); (3337185439303681, (-17)); (3313843414012938, (-17)); (3286679249406566, (-17)); (3255724276244004, (-17)); (3221014197549333, (-17)); (31825890474320086, (-18)); (3140493144912218, (-17)); (30947750428041033, (-18)); (30454874717158322, (-18)); (29926872792311075, (-18)); (29364353643422814, (-18)); (28767966072107177, (-18)); (28138397943354404, (-18)); (27476375392164173, (-18)); (2678266198604032, (-17)); (2605805784431418, (-17)); (25303398715313227, (-18)); (24519555012440974, (-18)); (23707430810281913, (-18)); (22867962801892544, (-18)); (2200211921848586, (-17)); (21110898712762463, (-18)); (20195329207187484, (-18)); (19256466708559475, (-18)); (18295394090267557, (-18)); (17313219843689776, (-18)); (1631107680025596, (-17)); (15290120825796501, (-18)); (14251529488953925, (-18)); (13196500705711139, (-18)); (12126251362637711, (-18)); (11042015922635394, (-18)); (9945045019726081, (-18)); (8836604056467877, (-18)); (7717971837373569, (-18)); (6590439334214895, (-18)); (5455308908000871, (-18)); (43138953318617, (-16)); (31675359433960978, (-19)); (20176713662628386, (-19)); (8671851787671422, (-19))].
(** data.rs:165 *)
Definition EVEN_W_47 : list (Z * Z) := [(3323930891781532, (-17)); (33202576618606865, (-18)); (33129152612546967, (-18)); (3301911803949165, (-17)); (3287259449712959, (-17)); (32689743906606304, (-18)); (3247076833358768, (-17)); (32215909764960304, (-18)); (3192544984141561, (-17)); (315997095462132, (-16)); (31239048850467417, (-18)); (3084386631534919, (-17)); (30414598651642713, (-18)); (29951720237143868, (-18)); (29455742592433675, (-18)); (28927213815606256, (-18)); (28366717976576108, (-18)); (2777487447163422, (-17)); (27152337338966565, (-18)); (264997945358917, (-16)); (2581796717861673, (-17)); (25107608745352405, (-18)); (24369504243668988, (-18)); (23604469343014384, (-18)); (22813349473355237, (-18)); (2199701889094008, (-17)); (2115637971222139, (-17)); (20292360917011133, (-18)); (19405917321982005, (-18)); (1849802852566591, (-17)); (17569697826143253, (-18)); (16621951112665498, (-18)); (1565583573251556, (-17)); (14672419334499464, (-18)); (13672788690606879, (-18)); (12658048497638994, (-18)); (11629320161122414, (-18)); (10587740564954122, (-18)); (9534460832865159, (-18)); (8470645094534636, (-18)); (7397469288142357, (-18)); (6316120091036448, (-18)); (5227794289507768, (-18)); (4133699875407777, (-18)); (3035065891038628, (-18)); (1933219888725419, (-18)); (8308716126821624, (-19))].
(** data.rs:166 *)
Definition EVEN_W_48 : list (Z * Z) := [(3255061449236317, (-17)); (32516118713868836, (-18)); (3244716371406427, (-17)); (3234382256857593, (-17)); (3220620479403025, (-17)); (32034456231992664, (-18)); (3182875889441101, (-17)); (3158933077072717, (-17)); (31316425596861354, (-18)); (31010332586313836, (-18)); (30671376123669148, (-18)); (30299915420827595, (-18)); (29896344136328384, (-18)); (29461089958167905, (-18)); (28994614150555237, (-18)); (28497411065085385, (-18)); (27970007616848334, (-18)); (27412962726029243, (-18)); (2682686672559176, (-17)); (26212340735672413, (-18)); (2557003600534936, (-17)); (2490063322248361, (-17)); (24204841792364692, (-18)); (2348339908592622, (-17)); (22737069658329372, (-18)); (2196664443874435, (-17)); (211729398921913, (-16)); (20356797154333323, (-18)); (1951908114014502, (-17)); (18660679627411466, (-18)); (1778250231604526, (-17)); (16885479864245174, (-18)); (15970562902562293, (-18)); (15038721026994937, (-18)); (1409094177231486, (-17)); (13128229566961573, (-18)); (1215160467108832, (-17)); (11162102099838499, (-18)); (10160770535008416, (-18)); (9148671230783386, (-18)); (8126876925698759, (-18)); (7096470791153865, (-18)); (6058545504235961, (-18)); (5014202742927518, (-18)); (3964554338444687, (-18)); (29107318179349465, (-19)); (18539607889469217, (-19)); (7967920655520124, (-19))].
(** data.rs:167 *)
Definition EVEN_W_49 : list (Z * Z) := [(3188987535287647, (-17)); (3185743815812401, (-17)); (3179259676252863, (-17)); (31695417120349255, (-18)); (3156599807910805, (-17)); (3140447127904656, (-17)); (31211001019226265, (-18)); (30985784090409935, (-18)); (3072904957489367, (-17)); (3044105861349326, (-17)); (30122104139921897, (-18)); (29772510582829478, (-18)); (2939263353580649, (-17)); (28982859395688343, (-18)); (28543604969527885, (-18)); (2807531705063614, (-17)); (27578471964122393, (-18)); (27053575082396128, (-18)); (2650116031112364, (-17)); (2592178954616245, (-17)); (25316052102026098, (-18)); (24684564112460994, (-18)); (240279679037455, (-16)); (23346931341349273, (-18)); (22642147150618432, (-18)); (2191433221217865, (-17)); (21164226832774857, (-18)); (20392593992291916, (-18)); (1960021856772633, (-17)); (18787906534904687, (-18)); (1795648414877063, (-17)); (171067971030899, (-16)); (16239709670453694, (-18)); (15356103823497756, (-18)); (14456878338304401, (-18)); (13542947881029464, (-18)); (12615242078921953, (-18)); (11674704577138125, (-18)); (10722292083224318, (-18)); (9758973402174097, (-18)); (8785728467392263, (-18)); (7803547379100755, (-18)); (6813429479165216, (-18)); (5816382546439639, (-18)); (4813422398586771, (-18)); (38055740853523597, (-19)); (2793881135722131, (-18)); (17794770410145288, (-19)); (7647669822743135, (-19))].
(** data.rs:168 *)
Definition EVEN_W_50 : list (Z * Z) := [(31255423453863354, (-18)); (31224884254849358, (-18)); (31163835696209907, (-18)); (31072337427566515, (-18)); (30950478850490987, (-18)); (3079837903115259, (-17)); (30616186583980447, (-18)); (3040407952645482, (-17)); (30162265105169145, (-18)); (29890979593332832, (-18)); (29590488059912642, (-18)); (29261084110638276, (-18)); (289030896011252, (-16)); (28516854322395098, (-18)); (28102755659101173, (-18)); (2766119822079239, (-17)); (2719261344657688, (-17)); (26697459183570964, (-18)); (26176219239545676, (-18)); (25629402910208116, (-18)); (2505754448157959, (-17)); (24461202707957052, (-18)); (23840960265968207, (-18)); (23197423185254123, (-18)); (22531220256336273, (-18)); (21843002416247388, (-18)); (21133442112527642, (-18)); (20403232646209433, (-18)); (19653087494435305, (-18)); (18883739613374903, (-18)); (18095940722128116, (-18)); (17290460568323583, (-18)); (16468086176145213, (-18)); (15629621077546004, (-18)); (14775884527441302, (-18)); (13907710703718773, (-18)); (13025947892971542, (-18)); (12131457662979498, (-18)); (11225114023185977, (-18)); (1030780257486897, (-17)); (9380419653694457, (-18)); (844387146966897, (-17)); (7499073255464711, (-18)); (6546948450845322, (-18)); (5588428003865515, (-18)); (46244500634221196, (-19)); (36559612013263754, (-19)); (26839253715534826, (-19)); (17093926535181052, (-19)); (7346344905056717, (-19))].
(** data.rs:170 *)
Definition ODD_W_1 : list (Z * Z) := [(5555555555555556, (-16))].
(** data.rs:171 *)
Definition ODD_W_2 : list (Z * Z) := [(47862867049936647, (-17)); (23692688505618908, (-17))].
(** data.rs:172 *)
Definition ODD_W_3 : list (Z * Z) := [(3818300505051189, (-16)); (27970539148927664, (-17)); (1294849661688697, (-16))].
(** data.rs:173 *)
Definition ODD_W_4 : list (Z * Z) := [(31234707704000286, (-17)); (26061069640293544, (-17)); (1806481606948574, (-16)); (8127438836157441, (-17))].
(** data.rs:174 *)
Definition ODD_W_5 : list (Z * Z) := [(26280454451024665, (-17)); (23319376459199048, (-17)); (18629021092773426, (-17)); (1255803694649046, (-16)); (5566856711617366, (-17))].
(** data.rs:175 *)
Definition ODD_W_6 : list (Z * Z) := [(22628318026289723, (-17)); (2078160475368885, (-16)); (17814598076194574, (-17)); (13887351021978725, (-17)); (9212149983772845, (-17)); (4048400476531588, (-17))].
(** data.rs:176 *)
Definition ODD_W_7 : list (Z * Z) := [(19843148532711158, (-17)); (1861610000155622, (-16)); (16626920581699392, (-17)); (13957067792615432, (-17)); (10715922046717194, (-17)); (7036604748810812, (-17)); (3075324199611727, (-17))].
(** data.rs:177 *)
Definition ODD_W_8 : list (Z * Z) := [(17656270536699264, (-17)); (16800410215645004, (-17)); (15404576107681028, (-17)); (13513636846852548, (-17)); (11188384719340397, (-17)); (8503614831717918, (-17)); (554595293739872, (-16)); (2414830286854793, (-17))].
(** data.rs:178 *)
Definition ODD_W_9 : list (Z * Z) := [(15896884339395434, (-17)); (15276604206585967, (-17)); (1426067021736066, (-16)); (12875396253933621, (-17)); (11156664554733399, (-17)); (9149002162245, (-14)); (6904454273764123, (-17)); (448142267656996, (-16)); (19461788229726478, (-18))].
(** data.rs:179 *)
Definition ODD_W_10 : list (Z * Z) := [(14452440398997005, (-17)); (13988739479107315, (-17)); (13226893863333747, (-17)); (12183141605372853, (-17)); (10879729916714838, (-17)); (9344442345603386, (-17)); (761001136283793, (-16)); (57134425426857205, (-18)); (36953789770852494, (-18)); (16017228257774335, (-18))].
(** data.rs:180 *)
Definition ODD_W_11 : list (Z * Z) := [(1324620394046966, (-16)); (12890572218808216, (-17)); (12304908430672953, (-17)); (11499664022241136, (-17)); (10489209146454141, (-17)); (9291576606003515, (-17)); (7928141177671895, (-17)); (6423242140852585, (-17)); (4803767173108467, (-17)); (30988005856979445, (-18)); (13411859487141771, (-18))].
(** data.rs:181 *)
Definition ODD_W_12 : list (Z * Z) := [(12224244299031004, (-17)); (11945576353578477, (-17)); (11485825914571164, (-17)); (10851962447426365, (-17)); (10053594906705064, (-17)); (9102826198296365, (-17)); (8014070033500102, (-17)); (6803833381235691, (-17)); (54904695975835194, (-18)); (40939156701306316, (-18)); (26354986615032137, (-18)); (11393798501026288, (-18))].
(** data.rs:182 *)
Definition ODD_W_13 : list (Z * Z) := [(11347634610896515, (-17)); (11125248835684519, (-17)); (10757828578853319, (-17)); (1025016378177458, (-16)); (960887273700285, (-16)); (8842315854375694, (-17)); (7960486777305777, (-17)); (697488237662456, (-16)); (58983536859833596, (-18)); (4744941252061506, (-17)); (3529705375741971, (-17)); (22686231596180623, (-18)); (979899605129436, (-17))].
(** data.rs:183 *)
Definition ODD_W_14 : list (Z * Z) := [(10587615509732094, (-17)); (10407331007772938, (-17)); (10109127375991496, (-17)); (969638340944086, (-16)); (9173775713925876, (-17)); (8547225736617253, (-17)); (7823832713576379, (-17)); (7011793325505128, (-17)); (61203090657079136, (-18)); (5159482690249793, (-17)); (41402062518682836, (-18)); (30740492202093624, (-18)); (19732085056122707, (-18)); (851690387874641, (-17))].
(** data.rs:184 *)
Definition ODD_W_15 : list (Z * Z) := [(9922501122667231, (-17)); (9774333538632872, (-17)); (9529024291231951, (-17)); (9189011389364148, (-17)); (8757674060847788, (-17)); (8239299176158926, (-17)); (7639038659877662, (-17)); (6962858323541037, (-17)); (6217478656102843, (-17)); (54103082424916855, (-18)); (45493707527201104, (-18)); (3643227391238547, (-17)); (27009019184979423, (-18)); (17318620790310584, (-18)); (74708315792487755, (-19))].
(** data.rs:185 *)
Definition ODD_W_16 : list (Z * Z) := [(9335642606559612, (-17)); (9212398664331685, (-17)); (9008195866063858, (-17)); (8724828761884433, (-17)); (836478760670387, (-16)); (7931236479488674, (-17)); (7427985484395415, (-17)); (6859457281865672, (-17)); (6230648253031748, (-17)); (5547084663166356, (-17)); (48147742818711696, (-18)); (40401541331669594, (-18)); (32300358632328954, (-18)); (2391554810174948, (-17)); (15321701512934676, (-18)); (6606227847587378, (-18))].
(** data.rs:186 *)
Definition ODD_W_17 : list (Z * Z) := [(8814053043027546, (-17)); (8710444699718353, (-17)); (8538665339209912, (-17)); (8300059372885658, (-17)); (7996494224232427, (-17)); (7630345715544205, (-17)); (7204479477256007, (-17)); (672222852690869, (-16)); (61873671966080186, (-18)); (5604081621237013, (-17)); (4976937040135353, (-17)); (43108422326170216, (-18)); (3611011586346338, (-17)); (28829260108894254, (-18)); (21322979911483582, (-18)); (13650828348361493, (-18)); (5883433420443085, (-18))].
(** data.rs:187 *)
Definition ODD_W_18 : list (Z * Z) := [(8347457362586279, (-17)); (8259527223643726, (-17)); (8113662450846502, (-17)); (7910886183752938, (-17)); (7652620757052923, (-17)); (7340677724848817, (-17)); (6977245155570035, (-17)); (6564872287275125, (-17)); (6106451652322599, (-17)); (5605198799827492, (-17)); (50646297654824604, (-18)); (44885364662437165, (-18)); (3880960250193454, (-17)); (32461639847521484, (-18)); (25886036990558935, (-18)); (19129044489083966, (-18)); (12238780100307557, (-18)); (5273057279497939, (-18))].
(** data.rs:188 *)
Definition ODD_W_19 : list (Z * Z) := [(7927622256836847, (-17)); (7852361328737117, (-17)); (7727455254468202, (-17)); (7553693732283606, (-17)); (7332175341426862, (-17)); (7064300597060875, (-17)); (6751763096623127, (-17)); (6396538813868238, (-17)); (6000873608859615, (-17)); (556726903409163, (-16)); (509846652921294, (-16)); (45974301108916635, (-18)); (4067327684793384, (-17)); (3511511149813133, (-17)); (2933495598390338, (-17)); (23369384832178163, (-18)); (17256229093724918, (-18)); (11034788939164594, (-18)); (4752944691635101, (-18))].
(** data.rs:189 *)
Definition ODD_W_20 : list (Z * Z) := [(7547874709271582, (-17)); (7482962317622155, (-17)); (7375188202722346, (-17)); (7225169686102308, (-17)); (7033766062081749, (-17)); (6802073676087676, (-17)); (6531419645352741, (-17)); (6223354258096632, (-17)); (5879642094987195, (-17)); (5502251924257874, (-17)); (5093345429461749, (-17)); (4655264836901434, (-17)); (4190519519590969, (-17)); (3701771670350799, (-17)); (3191821173169928, (-17)); (26635899207110444, (-18)); (21201063368779555, (-18)); (1564493840781859, (-17)); (9999938773905946, (-18)); (43061403581648875, (-19))].
(** data.rs:190 *)
Definition ODD_W_21 : list (Z * Z) := [(7202750197142198, (-17)); (7146373425251414, (-17)); (7052738776508503, (-17)); (6922334419365668, (-17)); (6755840222936517, (-17)); (655412421263228, (-16)); (6318238044939611, (-17)); (6049411524999129, (-17)); (5749046195691052, (-17)); (5418708031888179, (-17)); (5060119278439015, (-17)); (4675149475434658, (-17)); (4265805719798208, (-17)); (3834222219413266, (-17)); (3382649208686029, (-17)); (29134413261498494, (-18)); (24290456613838815, (-18)); (193199014236839, (-16)); (14248756431576486, (-18)); (9103996637401404, (-18)); (39194902538441274, (-19))].
(** data.rs:191 *)
Definition ODD_W_22 : list (Z * Z) := [(6887731697766132, (-17)); (6838457737866968, (-17)); (6756595416360754, (-17)); (6642534844984253, (-17)); (6496819575072343, (-17)); (6320144007381993, (-17)); (6113350083106652, (-17)); (5877423271884174, (-17)); (56134878759786476, (-18)); (5322801673126895, (-17)); (5006749923795203, (-17)); (46668387718373366, (-18)); (4304688070916497, (-17)); (3922023672930245, (-17)); (3520669220160902, (-17)); (31025374934515466, (-18)); (26696213967577664, (-18)); (22239847550578732, (-18)); (1767753525793759, (-17)); (13031104991582785, (-18)); (832318929621824, (-17)); (3582663155283559, (-18))].
(** data.rs:192 *)
Definition ODD_W_23 : list (Z * Z) := [(6599053358881048, (-17)); (6555737776654974, (-17)); (6483755623894573, (-17)); (6383421660571703, (-17)); (6255174622092166, (-17)); (6099575300873965, (-17)); (5917304094233888, (-17)); (5709158029323154, (-17)); (5476047278153023, (-17)); (5218991178005714, (-17)); (4939113774736117, (-17)); (4637638908650591, (-17)); (4315884864847954, (-17)); (39752586122531006, (-18)); (3617249658417495, (-17)); (32434235515184755, (-18)); (28554150700643387, (-18)); (2454921165965882, (-17)); (20436938147668428, (-18)); (1623533314643306, (-17)); (11962848464312321, (-18)); (7638616295848833, (-18)); (3287453842528015, (-18))].
(** data.rs:193 *)
Definition ODD_W_24 : list (Z * Z) := [(6333550929649175, (-17)); (629527074651957, (-16)); (62316417320057264, (-18)); (6142920097919294, (-17)); (6029463095315202, (-17)); (5891727576002727, (-17)); (5730268153018748, (-17)); (5545734967480359, (-17)); (5338871070825897, (-17)); (5110509433014459, (-17)); (4861569588782824, (-17)); (4593053935559585, (-17)); (43060436981259595, (-18)); (4001694576637302, (-17)); (3681232096300069, (-17)); (3345946679162218, (-17)); (29971884620583825, (-18)); (26363618927066016, (-18)); (22649201587446675, (-18)); (18843595853089458, (-18)); (1496214493562465, (-17)); (1102055103159358, (-17)); (70350995900864514, (-19)); (3027278988922905, (-18))].
(** data.rs:194 *)
Definition ODD_W_25 : list (Z * Z) := [(60885464844856345, (-18)); (6054550693473779, (-17)); (59980315777503256, (-18)); (59191993922961546, (-18)); (5818347398259214, (-17)); (56958507720258664, (-18)); (5552165209573869, (-17)); (5387825231304556, (-17)); (52034421936697085, (-18)); (4999702015005741, (-17)); (47773626240623104, (-18)); (4537251140765007, (-17)); (42802607997880084, (-18)); (4007347628549646, (-17)); (3719526892326029, (-17)); (34178693204188336, (-18)); (3103497129016001, (-17)); (27775798594162477, (-18)); (24413300573781434, (-18)); (2095998840170321, (-17)); (17428714723401052, (-18)); (13832634006477822, (-18)); (1018519129782173, (-17)); (65003377832526, (-16)); (27968071710898954, (-19))].
(** data.rs:195 *)
Definition ODD_W_26 : list (Z * Z) := [(58617586232720266, (-18)); (5831431136225601, (-17)); (578100149917132, (-16)); (57106435536267194, (-18)); (5620599838173971, (-17)); (551118075239336, (-16)); (5382763486873103, (-17)); (5235790722987272, (-17)); (5070769106929272, (-17)); (4888267503269914, (-17)); (46889150340750314, (-18)); (4473398910367281, (-17)); (42424620634520016, (-18)); (39969005843540385, (-18)); (37375609803482916, (-18)); (3465337258353424, (-17)); (31811678459019326, (-18)); (28860323617823737, (-18)); (25809482510757518, (-18)); (22669673057070207, (-18)); (19451721107636894, (-18)); (16166725256687463, (-18)); (12826026144240379, (-18)); (9441202284940345, (-18)); (6024276226948674, (-18)); (2591683720567032, (-18))].
(** data.rs:196 *)
Definition ODD_W_27 : list (Z * Z) := [(56512318249772, (-15)); (56240634071084365, (-18)); (5578879419528409, (-17)); (5515824600250869, (-17)); (54351009329911104, (-18)); (53369670001605474, (-18)); (5221737154563209, (-17)); (5089780512449398, (-17)); (4941519771155174, (-17)); (47774298551200696, (-18)); (4598036394628384, (-17)); (4403914042160659, (-17)); (4195684631771876, (-17)); (3974015187433718, (-17)); (37396157867965546, (-18)); (34932372873589884, (-18)); (32356689226185835, (-18)); (2967735776516104, (-17)); (2690296145639627, (-17)); (2404238800972562, (-17)); (21104801668016454, (-18)); (18099614520729064, (-18)); (15036458333511788, (-18)); (11925160719848612, (-18)); (8775746107058528, (-18)); (55986322665607675, (-19)); (2408323619979789, (-18))].
(** data.rs:197 *)
Definition ODD_W_28 : list (Z * Z) := [(5455280360476188, (-17)); (5430847145249864, (-17)); (53902061483298576, (-18)); (5333478658481916, (-17)); (5260833972917743, (-17)); (51724888920517825, (-18)); (5068707072492741, (-17)); (4949798240201968, (-17)); (4816117266168775, (-17)); (466806310736415, (-16)); (45060776161381155, (-18)); (433064422162152, (-16)); (4142286487080111, (-17)); (39415665475480116, (-18)); (37290834324417314, (-18)); (3505471278231262, (-17)); (3271397436637157, (-17)); (30275604842694, (-15)); (27746881402180193, (-18)); (25135350990918123, (-18)); (22448807890776436, (-18)); (1969527069948852, (-17)); (1688295902344155, (-17)); (14020270790753556, (-18)); (1111576373233599, (-17)); (8178160067821233, (-18)); (521653347471878, (-17)); (2243753872250663, (-18))].
(** data.rs:198 *)
Definition ODD_W_29 : list (Z * Z) := [(5272443385912793, (-17)); (5250390264782874, (-17)); (52137033648375394, (-18)); (5162484939089148, (-17)); (50968777425393914, (-18)); (501706463429969, (-16)); (49232680679361984, (-18)); (4815749471460644, (-17)); (46948085186962016, (-18)); (4560782294050977, (-17)); (44140443530297384, (-18)); (42550036811067636, (-18)); (4084103553868671, (-17)); (3901820301616001, (-17)); (37086619818870924, (-18)); (3505166963640011, (-17)); (32919024271045275, (-18)); (30694627836111682, (-18)); (283846802005348, (-16)); (259956197312985, (-16)); (23534105393713364, (-18)); (21006998288437186, (-18)); (1842134275361003, (-17)); (15784347313081468, (-18)); (1310336630634519, (-17)); (10385885500995862, (-18)); (76395294534875756, (-19)); (4872239168265285, (-18)); (20954922845412235, (-19))].
(** data.rs:199 *)
Definition ODD_W_30 : list (Z * Z) := [(51014487038697265, (-18)); (5081476366881834, (-17)); (5048247038679741, (-17)); (5001847410817825, (-17)); (4942398534673559, (-17)); (4870055505641153, (-17)); (47850070585095605, (-18)); (4687475075080907, (-17)); (4577714005314596, (-17)); (4456010203508349, (-17)); (43226811812496095, (-18)); (41780747790888494, (-18)); (4022568259099825, (-17)); (38565673207008176, (-18)); (36805050423154816, (-18)); (3494840751653335, (-17)); (3300058827590741, (-17)); (30966674368397396, (-18)); (288519720881834, (-16)); (2666199852415089, (-17)); (24402467187544203, (-18)); (22079273148319045, (-18)); (1969847774610118, (-17)); (17266292987613743, (-18)); (14789065884937915, (-18)); (12273263507812104, (-18)); (9725461830356134, (-18)); (715235499174909, (-17)); (4560924006012417, (-18)); (1961453361670283, (-18))].
(** data.rs:200 *)
Definition ODD_W_31 : list (Z * Z) := [(4941183303991818, (-17)); (4923038042374756, (-17)); (4892845282051199, (-17)); (4850678909788385, (-17)); (4796642113799513, (-17)); (47308671312268916, (-18)); (465351492453837, (-16)); (4564774787629261, (-17)); (44648638825941396, (-18)); (4354026708302759, (-17)); (4232534502081582, (-17)); (410068457596664, (-16)); (39587995891544096, (-18)); (38072267584349555, (-18)); (3646337008545729, (-17)); (34765240645355876, (-18)); (3298203488377934, (-17)); (3111811662221982, (-17)); (29178047208280527, (-18)); (27166574359097934, (-18)); (25088620553344987, (-18)); (22949271004889932, (-18)); (2075376125803909, (-17)); (1850746446016127, (-17)); (1621587841033834, (-17)); (13884612616115611, (-18)); (11519376076880042, (-18)); (9125968676326656, (-18)); (6710291765960137, (-18)); (4278508346863762, (-18)); (18398745955770842, (-19))].
(** data.rs:201 *)
Definition ODD_W_32 : list (Z * Z) := [(4790669250049586, (-17)); (4774134868124062, (-17)); (47466198232885504, (-18)); (4708187401045452, (-17)); (46589259972233496, (-18)); (459894891466517, (-16)); (45283941026300234, (-18)); (4447423839508297, (-17)); (43562243595800486, (-18)); (425500542467558, (-16)); (4143999841724029, (-17)); (40234629273005536, (-18)); (38936719204051194, (-18)); (37549253448257706, (-18)); (3607542322556528, (-17)); (34518618398549056, (-18)); (32882419676368575, (-18)); (31170590380189142, (-18)); (29387067789310668, (-18)); (27535954088450346, (-18)); (25621506938037757, (-18)); (23648129691287236, (-18)); (21620361284934064, (-18)); (1954286583675006, (-17)); (17420421997670247, (-18)); (1525791214644831, (-17)); (13060311639994847, (-18)); (10832678789597969, (-18)); (858014826688146, (-17)); (6307942578971755, (-18)); (4021524172003736, (-18)); (17292582513002508, (-19))].
(** data.rs:202 *)
Definition ODD_W_33 : list (Z * Z) := [(4649043816026463, (-17)); (4633935168241562, (-17)); (4608790448976158, (-17)); (4573664116106369, (-17)); (4528632245466953, (-17)); (4473792366088983, (-17)); (4409263248975102, (-17)); (4335184649869952, (-17)); (42517170065830494, (-18)); (41590410915199244, (-18)); (40573576201744524, (-18)); (3946886816430888, (-17)); (3827867935617948, (-17)); (37005587463492584, (-18)); (3565234972274501, (-17)); (34221896949536645, (-18)); (32717327191531205, (-18)); (31141899019472823, (-18)); (2949902447094567, (-17)); (2779226166243677, (-17)); (2602530708621324, (-17)); (24201987609673164, (-18)); (22326252196452078, (-18)); (2040216337134354, (-17)); (18433888456804572, (-18)); (1642569062253088, (-17)); (14381919827200551, (-18)); (1230700384928815, (-17)); (10205440034102441, (-18)); (8081790299023136, (-18)); (5940693177582235, (-18)); (37870083018255083, (-19)); (16283250352400129, (-19))].
(** data.rs:203 *)
Definition ODD_W_34 : list (Z * Z) := [(4515543023614546, (-17)); (450170081403998, (-16)); (44786618878312555, (-18)); (44464733122047136, (-18)); (4405200846590929, (-17)); (4354928808292674, (-17)); (4295759900230521, (-17)); (4227815001128051, (-17)); (415123291856545, (-16)); (40661701054061604, (-18)); (3972800340176164, (-17)); (3871314372049251, (-17)); (3761919531164091, (-17)); (36448393050700516, (-18)); (35203128821683485, (-18)); (3388594663083229, (-17)); (3249953740964611, (-17)); (3104673351789054, (-17)); (29530502957906712, (-18)); (27953943312187705, (-18)); (26320275416869484, (-18)); (24632836784542457, (-18)); (22895074790740787, (-18)); (21110539639871896, (-18)); (19282877128849404, (-18)); (1741582123196983, (-17)); (15513186543406166, (-18)); (13578860649075672, (-18)); (11616796610671965, (-18)); (9631006150415575, (-18)); (7625555931201511, (-18)); (5604579927870595, (-18)); (35724167393973725, (-19)); (1535976952792084, (-18))].
(** data.rs:204 *)
Definition ODD_W_35 : list (Z * Z) := [(43894879211788584, (-18)); (4376774491340214, (-17)); (43556127104108534, (-18)); (4326043426324127, (-17)); (4288123715758044, (-17)); (42419267739624594, (-18)); (4187541773473301, (-17)); (4125073691986603, (-17)); (405464310972469, (-16)); (3976385976685758, (-17)); (38904533502262945, (-18)); (3797011103483116, (-17)); (3696239605198203, (-17)); (3588333371564891, (-17)); (34735006907682185, (-18)); (3351963220945403, (-17)); (3223955562344353, (-17)); (3089724804509072, (-17)); (29495300493708812, (-18)); (2803641911174149, (-17)); (26523419942157907, (-18)); (24959223494313874, (-18)); (2334684910922325, (-17)); (2168940913598537, (-17)); (19990102932350113, (-18)); (1825221070467867, (-17)); (16479087207462398, (-18)); (14674155334611529, (-18)); (12840899668087807, (-18)); (10982860154298552, (-18)); (9103626461992005, (-18)); (7206835281831493, (-18)); (52961828440258926, (-19)); (3375555496730676, (-18)); (14512673300293973, (-19))].
(** data.rs:205 *)
Definition ODD_W_36 : list (Z * Z) := [(4270273086485722, (-17)); (4258568982601839, (-17)); (4239085899223159, (-17)); (4211859425425564, (-17)); (41769392948692856, (-18)); (4134389294952549, (-17)); (4084287150293886, (-17)); (40267243807560034, (-18)); (39618061342706144, (-18)); (38896509947696736, (-18)); (381039076557398, (-16)); (3724170228634977, (-17)); (36311468800697785, (-18)); (3531490642472829, (-17)); (34253835545302216, (-18)); (3313019438504384, (-17)); (31946035461976705, (-18)); (30703521840433505, (-18)); (2940492318011656, (-17)); (2805261159057206, (-17)); (26649057298727484, (-18)); (25196824137538314, (-18)); (23698564864218976, (-18)); (22157016317040073, (-18)); (2057499442036117, (-17)); (18955389048670022, (-18)); (17301158762489083, (-18)); (15615325433591423, (-18)); (13900968788314651, (-18)); (12161220929281112, (-18)); (10399260995000532, (-18)); (8618310479532248, (-18)); (6821631349174792, (-18)); (501253857160619, (-17)); (31945243772890345, (-19)); (13733764627596192, (-19))].
(** data.rs:206 *)
Definition ODD_W_37 : list (Z * Z) := [(41573569441781276, (-18)); (4146558103261909, (-17)); (41285808082467186, (-18)); (410345618113921, (-16)); (4071227717293733, (-17)); (40319512101141576, (-18)); (3985694654465635, (-17)); (3932538128963516, (-17)); (38725736573432576, (-18)); (38059050491513605, (-18)); (3732647720033209, (-17)); (3652928491929034, (-17)); (3566885373524045, (-17)); (3474667321333041, (-17)); (3376433981833409, (-17)); (3272355415093422, (-17)); (3162611800374965, (-17)); (3047393124221454, (-17)); (29268988515725985, (-18)); (2801337580478054, (-17)); (2670926681012085, (-17)); (25358919190216378, (-18)); (2396467065371696, (-17)); (22528934913865775, (-18)); (2105419751228284, (-17)); (19543011520127888, (-18)); (1799799312564505, (-17)); (1642181711902464, (-17)); (14817212289814469, (-18)); (13186956762824801, (-18)); (11533873328304496, (-18)); (9860824916114019, (-18)); (8170710707327826, (-18)); (6466464907037539, (-18)); (4751069185015274, (-18)); (3027671014606041, (-18)); (1301591717375856, (-18))].
(** data.rs:207 *)
Definition ODD_W_38 : list (Z * Z) := [(4050253572678803, (-17)); (40402690032217754, (-18)); (40236462824851084, (-18)); (4000412721559124, (-17)); (3970606493128931, (-17)); (39342765687570155, (-18)); (3891482638423378, (-17)); (38422950124554524, (-18)); (3786794506008932, (-17)); (3725072306289372, (-17)); (3657229822732745, (-17)); (35833785203911964, (-18)); (3503639736797828, (-17)); (3418144482611568, (-17)); (3327033226369854, (-17)); (32304556637030975, (-18)); (3128570471390543, (-17)); (30215450466623, (-15)); (2909555232176876, (-17)); (2792785027127697, (-17)); (26714262849557892, (-18)); (25456783981694403, (-18)); (24157479707955846, (-18)); (2281848479012952, (-17)); (21441999205456135, (-18)); (20030284534316177, (-18)); (18585660248341487, (-18)); (17110499906531105, (-18)); (15607227268749132, (-18)); (14078312340027004, (-18)); (12526267369227365, (-18)); (10953642853911354, (-18)); (9363023692386431, (-18)); (7757025950083071, (-18)); (61382961597563415, (-19)); (4509523600205835, (-18)); (28735530836526916, (-19)); (12352911771394096, (-19))].
(** data.rs:208 *)
Definition ODD_W_39 : list (Z * Z) := [(3948525740129116, (-17)); (39392756004743006, (-18)); (39238747496594645, (-18)); (390234723428798, (-16)); (3874726667023997, (-17)); (3841056174110418, (-17)); (3801388328032605, (-17)); (3755785065432977, (-17)); (37043175904046786, (-18)); (36470662633153426, (-18)); (35841204753345755, (-18)); (35155785088611134, (-18)); (344154738406766, (-16)); (3362142691803093, (-17)); (3277488413113082, (-17)); (3187716725661117, (-17)); (30929677973524836, (-18)); (29933895674838364, (-18)); (28891375157607268, (-18)); (2780374419544706, (-17)); (26672700997105555, (-18)); (25500011555128772, (-18)); (24287506888799493, (-18)); (23037080185719025, (-18)); (2175068384660808, (-17)); (2043032643814086, (-17)); (1907806955893749, (-17)); (17696024624310417, (-18)); (16286349576191683, (-18)); (14851245526350068, (-18)); (13392953344825676, (-18)); (11913750215116998, (-18)); (10415946204513383, (-18)); (8901880982652486, (-18)); (7373921131330177, (-18)); (5834459868763466, (-18)); (42859291131265315, (-19)); (2730907065754856, (-18)); (1173930129956613, (-18))].
(** data.rs:209 *)
Definition ODD_W_40 : list (Z * Z) := [(385177895968847, (-16)); (38431929580375175, (-18)); (3828897129558352, (-17)); (380891271354756, (-16)); (3783269400830056, (-17)); (37520052896475836, (-18)); (3715166829056371, (-17)); (3672808749918044, (-17)); (36249939835863415, (-18)); (3571793568410457, (-17)); (3513286544193938, (-17)); (344955983476598, (-16)); (33807081188396246, (-18)); (33068336893488, (-15)); (3228046301473269, (-17)); (31444630095774063, (-18)); (30562079933052662, (-18)); (29634123730905598, (-18)); (28662140153560677, (-18)); (27647573276924926, (-18)); (26591930443219922, (-18)); (25496780021665676, (-18)); (24363749078563098, (-18)); (2319452096027392, (-17)); (21990832792751634, (-18)); (2075447290144561, (-17)); (19487278155601917, (-18)); (1819113124125576, (-17)); (1686795786763514, (-17)); (15519723912464364, (-18)); (14148432513236065, (-18)); (12756121115134422, (-18)); (11344858495416256, (-18)); (9916741809595876, (-18)); (8473893785345566, (-18)); (7018460484931626, (-18)); (5552611370256279, (-18)); (4078551113421395, (-18)); (2598622299928953, (-18)); (11170298471246066, (-19))].
(** data.rs:210 *)
Definition ODD_W_41 : list (Z * Z) := [(3759656394395518, (-17)); (37516724503737275, (-18)); (37383784335757404, (-18)); (3719793160197673, (-17)); (3695942935618497, (-17)); (3666861517167809, (-17)); (36325900663462286, (-18)); (35931770905660645, (-18)); (35486783744947105, (-18)); (34991569010979655, (-18)); (34446827624950514, (-18)); (338533306075152, (-16)); (33211917987505016, (-18)); (32523497612968064, (-18)); (3178904386622215, (-17)); (31009596284739194, (-18)); (30186258089814417, (-18)); (29320194625104528, (-18)); (28412631707247643, (-18)); (27464853890903262, (-18)); (26478202650673764, (-18)); (25454074482489496, (-18)); (2439391892715856, (-17)); (2329923651890055, (-17)); (22171576661803624, (-18)); (21012535437269917, (-18)); (19823753345654938, (-18)); (18606912985478473, (-18)); (17363736673824622, (-18)); (1609598401193537, (-17)); (14805449400717877, (-18)); (13493959512375236, (-18)); (12163370727798613, (-18)); (10815566558037159, (-18)); (94524550924797, (-16)); (8075966593123452, (-18)); (6688051635243685, (-18)); (5290681445859866, (-18)); (3885859435353202, (-18)); (24757193225459395, (-19)); (10641682196665678, (-19))].
(** data.rs:211 *)
Definition ODD_W_42 : list (Z * Z) := [(3671834473341962, (-17)); (36643975933785704, (-18)); (36520139488744885, (-18)); (363470025716952, (-16)); (3612479890936246, (-17)); (3585382846628081, (-17)); (355344570398557, (-16)); (3516711576655579, (-17)); (3475230053990064, (-17)); (3429057134102985, (-17)); (3378255148275753, (-17)); (3322892676813277, (-17)); (32630444564642175, (-18)); (3198791279530468, (-17)); (3130219884802087, (-17)); (30574228404649996, (-18)); (2980498419139589, (-17)); (2899550465219015, (-17)); (28146882546865076, (-18)); (27260263476011164, (-18)); (2633684433451436, (-17)); (2537787169586609, (-17)); (24384640129435683, (-18)); (2335849045298989, (-17)); (22300807922839373, (-18)); (2121302036408938, (-17)); (2009659624357542, (-17)); (1895304268818284, (-17)); (17783903451398173, (-18)); (1659075683115467, (-17)); (15375213542389627, (-18)); (14138914548400832, (-18)); (12883528856498084, (-18)); (11610751286703897, (-18)); (10322300230524245, (-18)); (9019915439993632, (-18)); (7705355960382757, (-18)); (6380398587897515, (-18)); (50468384269244425, (-19)); (37065001257593167, (-19)); (2361331704285021, (-18)); (10149719089677437, (-19))].
(** data.rs:212 *)
Definition ODD_W_43 : list (Z * Z) := [(35880191060187014, (-18)); (3581080434383374, (-17)); (3569525919440943, (-17)); (3553370454416059, (-17)); (3532634862941021, (-17)); (35073458722151535, (-18)); (34775360785547826, (-18)); (34432439053782245, (-18)); (3404513553679937, (-17)); (33613949450576934, (-18)); (3313943657366202, (-17)); (32622208530801444, (-18)); (3206293200458967, (-17)); (3146232787615076, (-17)); (30821170295962236, (-18)); (30140285686018824, (-18)); (29420551674623048, (-18)); (28662895965176217, (-18)); (27868295140429208, (-18)); (27037773403735806, (-18)); (2617240125893356, (-17)); (25273294130557074, (-18)); (24341610926167632, (-18)); (2337855254266017, (-17)); (22385360318485478, (-18)); (2136331443380253, (-17)); (2031373226065557, (-17)); (1923796666535656, (-17)); (18137404265354252, (-18)); (17013463643001533, (-18)); (15867593518826318, (-18)); (14701270887239843, (-18)); (13515999118245659, (-18)); (12313306030048037, (-18)); (1109474194056072, (-17)); (9861877713701827, (-18)); (8616302838488951, (-18)); (73596236488180635, (-19)); (6093462047634872, (-18)); (48194562385018855, (-19)); (35392716553886284, (-19)); (22546907537528533, (-19)); (9691097381770754, (-19))].
(** data.rs:213 *)
Definition ODD_W_44 : list (Z * Z) := [(35079424017902025, (-18)); (3501458416619644, (-17)); (3490660650856071, (-17)); (3475562407298142, (-17)); (3456182286913781, (-17)); (34325441659239085, (-18)); (3404677166387109, (-17)); (3372615620321457, (-17)); (3336399027407732, (-17)); (3296072006326112, (-17)); (32516842397863205, (-18)); (32032904133189585, (-18)); (3150950147903429, (-17)); (30947279265154844, (-18)); (30346930146849128, (-18)); (29709193751612458, (-18)); (2903485576792681, (-17)); (28324746977305207, (-18)); (27579742230784583, (-18)); (26800759371129176, (-18)); (25988758102073836, (-18)); (2514473880600257, (-17)); (2426974131152234, (-17)); (23364843612455447, (-18)); (2243116053983637, (-17)); (2146984238856114, (-17)); (2048207350040027, (-17)); (19469070805151874, (-18)); (18432082321784116, (-18)); (17372385621502402, (-18)); (16291286254792384, (-18)); (15190116144666123, (-18)); (14070231948644483, (-18)); (12933013392602678, (-18)); (11779861580874892, (-18)); (10612197289972187, (-18)); (943145926079789, (-17)); (823910252538908, (-17)); (7036596870989114, (-18)); (5825425788770108, (-18)); (46070873434632415, (-19)); (33831047924074552, (-19)); (2155112582219114, (-18)); (9262871051934728, (-19))].
(** data.rs:214 *)
Definition ODD_W_45 : list (Z * Z) := [(343135981762314, (-16)); (3425291647165106, (-17)); (34151859775410125, (-18)); (3401054720622908, (-17)); (33829145333697935, (-18)); (33607867981935755, (-18)); (3334697597754984, (-17)); (3304677684219179, (-17)); (3270762443007278, (-17)); (323299185108654, (-16)); (31914104298483695, (-18)); (3146067192629709, (-17)); (30970155869396544, (-18)); (30443134314594396, (-18)); (29880228478900376, (-18)); (2928210187727748, (-17)); (28649459540541024, (-18)); (27983047184323165, (-18)); (2728365033008298, (-17)); (26552093379198907, (-18)); (25789238641236015, (-18)); (2499598531753496, (-17)); (2417326844132288, (-17)); (23322057775598804, (-18)); (22443356670097375, (-18)); (21538200878685666, (-18)); (2060765733859846, (-17)); (19652822912969145, (-18)); (18674823098168127, (-18)); (17674810697521904, (-18)); (1665396446306124, (-17)); (1561348770705006, (-17)); (14554606885208696, (-18)); (1347857015383098, (-17)); (12386645903556743, (-18)); (11280121273769683, (-18)); (10160300654415477, (-18)); (9028504189234487, (-18)); (7886066314628902, (-18)); (67343344322688846, (-19)); (5574668047479789, (-18)); (44084397473026764, (-19)); (3237045507972105, (-18)); (20619871220322297, (-19)); (8862412406694142, (-19))].
(** data.rs:215 *)
Definition ODD_W_46 : list (Z * Z) := [(3358047670273291, (-17)); (335236050923669, (-16)); (3342889041048296, (-17)); (3329643957561579, (-17)); (33126402104703224, (-18)); (3291896994430459, (-17)); (32674377253922415, (-18)); (32392900141672294, (-18)); (3207485635259922, (-17)); (3172060490999231, (-17)); (31330545710102804, (-18)); (30905119070722936, (-18)); (3044480523413531, (-17)); (29950123824993923, (-18)); (29421633263748977, (-18)); (28859930136277707, (-18)); (28265648520433066, (-18)); (2763945927027072, (-17)); (26982069258762734, (-18)); (26294220579853273, (-18)); (25576689710757838, (-18)); (24830286635452583, (-18)); (24055853930344658, (-18)); (23254265813157753, (-18)); (22426427156109572, (-18)); (21573272464499818, (-18)); (20695764821868735, (-18)); (1979489480292793, (-17)); (18871679355508035, (-18)); (17927160652813714, (-18)); (1696240491732901, (-17)); (15978501217782118, (-18)); (14976560240671882, (-18)); (1395771303800797, (-17)); (12923109753185351, (-18)); (11873918327447126, (-18)); (1081132319054249, (-17)); (9736523941887688, (-18)); (8650734035428648, (-18)); (7555179500769821, (-18)); (6451097794311276, (-18)); (5339737098169215, (-18)); (4222357382406608, (-18)); (31002404030993167, (-19)); (19747687686868082, (-19)); (8487371680679111, (-19))].
(** data.rs:216 *)
Definition ODD_W_47 : list (Z * Z) := [(3287800959763195, (-17)); (32824635693699186, (-18)); (3273574336068393, (-17)); (3261142878598215, (-17)); (3245182648620326, (-17)); (32257109161614415, (-18)); (320274875092677, (-16)); (3176320999501228, (-17)); (314645625846384, (-16)); (31131868434443998, (-18)); (30765487541558913, (-18)); (30365816354405068, (-18)); (29933287343714112, (-18)); (29468368534566882, (-18)); (28971562999961013, (-18)); (28443408316454862, (-18)); (27884475982476915, (-18)); (27295370799930222, (-18)); (26676730219761354, (-18)); (26029223652202272, (-18)); (25353551742432014, (-18)); (2465044561244262, (-17)); (2392066606993061, (-17)); (2316500278507139, (-17)); (22384273436069392, (-18)); (215793228244114, (-16)); (207510219607849, (-16)); (1990026712265721, (-17)); (19027978884545705, (-18)); (18135101122045146, (-18)); (17222599990716986, (-18)); (16291462880991044, (-18)); (15342697350288356, (-18)); (14377330033659081, (-18)); (13396405534368286, (-18)); (1240098529611606, (-17)); (11392146459085845, (-18)); (10370980703116097, (-18)); (9338593083876396, (-18)); (829610087453099, (-17)); (72446324439332, (-16)); (6185326261033324, (-18)); (5119330329927718, (-18)); (40478033163717595, (-19)); (2971924240818191, (-18)); (18929683779229359, (-19)); (8135642494541165, (-19))].
(** data.rs:217 *)
Definition ODD_W_48 : list (Z * Z) := [(32204314596613506, (-18)); (32154157379585505, (-18)); (320706198752728, (-16)); (3195378880670864, (-17)); (3180378546007149, (-17)); (31620765558774015, (-18)); (3140491910180172, (-17)); (31156470166469042, (-18)); (30875676675797655, (-18)); (30562830130758584, (-18)); (30218255307656015, (-18)); (2984230992096703, (-17)); (29435384251987322, (-18)); (28997900743668432, (-18)); (28530313562067186, (-18)); (28033108124862677, (-18)); (27506800597430343, (-18)); (2695193735699644, (-17)); (2636909442542935, (-17)); (25758876871256785, (-18)); (25121918181530048, (-18)); (2445887960418785, (-17)); (23770449461603067, (-18)); (23057342436025995, (-18)); (2232029882766713, (-17)); (21560083786191717, (-18)); (2077748651642657, (-17)); (19973319459108047, (-18)); (1914841744752813, (-17)); (1830363684096414, (-17)); (17439854635807803, (-18)); (16557967555342456, (-18)); (1565889111915692, (-17)); (1474355869323695, (-17)); (13812920521853043, (-18)); (12867942742493386, (-18)); (11909606385330757, (-18)); (10938906359195949, (-18)); (9956850427084045, (-18)); (8964458176698, (-15)); (7962759997865495, (-18)); (6952796096469405, (-18)); (5935615630788223, (-18)); (4912276262166028, (-18)); (38838453294892943, (-19)); (28514092432130557, (-19)); (18161463982100396, (-19)); (7805332219425613, (-19))].
(** data.rs:218 *)
Definition ODD_W_49 : list (Z * Z) := [(3155766036791123, (-17)); (3151046648162835, (-17)); (3143186227722155, (-17)); (3132192610907518, (-17)); (3118076756395816, (-17)); (31008527351785595, (-18)); (3080537716535628, (-17)); (3057151950920578, (-17)); (30307187497745806, (-18)); (30012644622891035, (-18)); (296881844914051, (-16)); (29334130532227505, (-18)); (2895083567407331, (-17)); (2853868199362695, (-17)); (28098080334680912, (-18)); (2762946989859901, (-17)); (2713331780651255, (-17)); (26610118633685852, (-18)); (26060393916515483, (-18)); (25484691632654755, (-18)); (24883585654781947, (-18)); (24257675178557078, (-18)); (23607584125337894, (-18)); (22933960520251054, (-18)); (22237475846239373, (-18)); (21518824374730225, (-18)); (20778722473594212, (-18)); (20017907893086564, (-18)); (19237139030487186, (-18)); (184371941741785, (-16)); (1761887072792438, (-17)); (16782984416138708, (-18)); (1593036847096085, (-17)); (15061872801990233, (-18)); (14178363149579445, (-18)); (13280720222657284, (-18)); (12369838822175162, (-18)); (11446626951498253, (-18)); (10512004915524745, (-18)); (9566904411326136, (-18)); (8612267615478888, (-18)); (7649046279335258, (-18)); (6678200860575098, (-18)); (5700699773395927, (-18)); (471751903752083, (-17)); (3729643487243035, (-18)); (27380758736268783, (-19)); (1743906958219245, (-18)); (7494736467374053, (-19))].
(** data.rs:221 *)
Definition ODD_WEIGHTS : list (list (Z * Z)) := [ODD_W_1; ODD_W_2; ODD_W_3; ODD_W_4; ODD_W_5; ODD_W_6; ODD_W_7; ODD_W_8; ODD_W_9; ODD_W_10; ODD_W_11; ODD_W_12; ODD_W_13; ODD_W_14; ODD_W_15; ODD_W_16; ODD_W_17; ODD_W_18; ODD_W_19; ODD_W_20; ODD_W_21; ODD_W_22; ODD_W_23; ODD_W_24; ODD_W_25; ODD_W_26; ODD_W_27; ODD_W_28; ODD_W_29; ODD_W_30; ODD_W_31; ODD_W_32; ODD_W_33; ODD_W_34; ODD_W_35; ODD_W_36; ODD_W_37; ODD_W_38; ODD_W_39; ODD_W_40; ODD_W_41; ODD_W_42; ODD_W_43; ODD_W_44; ODD_W_45; ODD_W_46; ODD_W_47; ODD_W_48; ODD_W_49].
(** data.rs:223 *)
Definition EVEN_WEIGHTS : list (list (Z * Z)) := [EVEN_W_1; EVEN_W_2; EVEN_W_3; EVEN_W_4; EVEN_W_5; EVEN_W_6; EVEN_W_7; EVEN_W_8; EVEN_W_9; EVEN_W_10; EVEN_W_11; EVEN_W_12; EVEN_W_13; EVEN_W_14; EVEN_W_15; EVEN_W_16; EVEN_W_17; EVEN_W_18; EVEN_W_19; EVEN_W_20; EVEN_W_21; EVEN_W_22; EVEN_W_23; EVEN_W_24; EVEN_W_25; EVEN_W_26; EVEN_W_27; EVEN_W_28; EVEN_W_29; EVEN_W_30; EVEN_W_31; EVEN_W_32; EVEN_W_33; EVEN_W_34; EVEN_W_35; EVEN_W_36; EVEN_W_37; EVEN_W_38; EVEN_W_39; EVEN_W_40; EVEN_W_41; EVEN_W_42; EVEN_W_43; EVEN_W_44; EVEN_W_45; EVEN_W_46; EVEN_W_47; EVEN_W_48; EVEN_W_49; EVEN_W_50].
(** data.rs:226 *)
Definition CL : list (Z * Z) := [(10, (-1)); (10, (-1)); (-5, (-1)); (-15, (-1)); (375, (-3)); (1875, (-3)); (-3125, (-4)); (-21875, (-4)); (2734375, (-7)); (24609375, (-7)); (-24609375, (-8)); (-270703125, (-8)); (2255859375, (-10)); (29326171875, (-10)); (-20947265625, (-11)); (-314208984375, (-11)); (196380615234375, (-15)); (3338470458984375, (-15)); (-1854705810546875, (-16)); (-35239410400390625, (-16)); (17619705200195313, (-17)); (37001380920410156, (-16)); (-16818809509277344, (-17)); (-3868326187133789, (-15)); (1611802577972412, (-16)); (402950644493103, (-14)); (-15498101711273193, (-17)); (-4184487462043762, (-15)); (14944598078727722, (-17)); (4333933442831039, (-15)); (-14446444809436798, (-17)); (-4478397890925407, (-15)); (13994993409141898, (-17)); (4618347825016826, (-15)); (-13583375955931842, (-17)); (-4754181584576145, (-15)); (13206059957155958, (-17)); (4886242184147704, (-15)); (-1285853206354659, (-16)); (-501482750478317, (-14)); (12537068761957926, (-17)); (51401981924027496, (-16)); (-12238567124768451, (-17)); (-5262583863650434, (-15)); (11960417871932805, (-17)); (5382188042369762, (-15)); (-11700408787760352, (-17)); (-5499192130247366, (-15)); (11456650271348678, (-17)); (5613758632960852, (-15)); (-11227517265921705, (-17)); (-57260338056200695, (-16)); (11011603472346287, (-17)); (5836149840343532, (-15)); (-1080768488952506, (-16)); (-5944226689238783, (-15)); (10614690516497827, (-17)); (6050373594403761, (-15)); (-10431678611040968, (-17)); (-6154690380514171, (-15)); (10257817300856951, (-17)); (625726855352274, (-14)); (-10092368634714098, (-17)); (-6358192239869881, (-15)); (9934675374796689, (-17)); (6457538993617848, (-15)); (-9784149990330074, (-17)); (-6555380493521149, (-15)); (9640265431648748, (-17)); (6651783147837636, (-15)); (-9502547354053767, (-17)); (-6746808621378174, (-15)); (9370567529691909, (-17)); (6840514296675093, (-15)); (-9243938238750125, (-17)); (-6932953679062594, (-15)); (9122307472450782, (-17)); (7024176753787103, (-15)); (-9005354812547567, (-17)); (-7114230301912578, (-15)); (8892787877390723, (-17)); (72031581806864855, (-16)); (-8784339244739617, (-17)); (-7291001573133881, (-15)); (8679763777540335, (-17)); (7377799210909285, (-15)); (-8578836291754982, (-17)); (-74635875738268345, (-16)); (8481349515712312, (-17)); (7548401068983957, (-15)); (-8387112298871065, (-17)); (-7632272191972668, (-15)); (8295948034752901, (-17)); (7715231672320197, (-15)); (-8207693268425742, (-17)); (-7797308605004455, (-15)); (8122196463546306, (-17)); (7878530569639918, (-15)); (-8039316907795835, (-17)); (-7958923738717876, (-15)); (7958923738717877, (-17))].
