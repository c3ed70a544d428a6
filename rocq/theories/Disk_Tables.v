(** The tables of /repo/src/interaction/magneto-disk.hpp, copied digit by digit (generated from the source text).
    A table holds the decimal literals times the power of ten given with it.  The doubles the compiler makes of the
    literals differ from them by rounding. *)
From Coq Require Export ZArith List.
Export ListNotations.
#[global] Open Scope Z_scope.

(** _GDF_I, magneto-disk.hpp lines 31-81; times 10^20. *)
Definition gdf_I_digits : nat := 20.
Definition gdf_I : list Z :=
  [
   3353477310756164000; 3473439223614075600; 3597806041239870500; 3726752096204775000; 3860460002519508000; 3999121194153265000;
   4142936512106664000; 4292116845503820000; 4446883832868869000; 4607470630560932000; 4774122756281009400; 4947099016618135000;
   5126672528842926000; 5313131848582874000; 5506782216647487000; 5707946940199091000; 5916968925689883000; 6134212383576420600;
   6360064727874257000; 6594938697192382000; 6839274728077802000; 7093543616493195000; 7358249509123961000; 7633933273233864000;
   7921176302153891000; 8220604823514063000; 8532894789414955000; 8858777442301795000; 9199045668027518000; 9554561269160872000;
   9926263318059157000; 10315177781775983000; 10722428651200937000; 11149250857015065000; 11597005317893944000; 12067196545585393000;
   12561493331948280000; 13081753171334742000; 13630051236804913000; 14208714942779635000; 14820365406772995000; 15467967492371850000;
   16154890607954941000; 16884983098320988000; 17662663968309775000; 18493036919747236000; 19382033416256078000; 20336593942889636000;
   21364900151027640000; 22476675726785580000; 23683581481874894000; 24999741800379588000; 26442457648752230000; 28033190152468235000;
   29798945947716760000; 31774275441863040000; 34004235551807077000; 36548926071408094000; 39493108439652650000; 42910755099962344000;
   46785167716563225000; 51079446407443470000; 55743103169271220000; 60709768920360250000; 65894587161777550000; 71191255280114660000;
   76468669903160900000; 81567127576995470000; 86294026299890960000; 90419007058217940000; 93668467388137360000; 95719371051858540000;
   96192269077019510000; 94643437560491960000; 91469161302540910000; 87831442239772220000; 83937763301184480000; 79924116068911340000;
   75883603234545830000; 71880598037622450000; 67959643603602720000; 64151277716464450000; 60475973033555820000; 56946875620925300000;
   53571751332870140000; 50354395019975610000; 47295666542679543000; 44394262045585790000; 41647294011207350000; 39050731020545143000;
   36599733181350050000; 34288909052734080000; 32112512900832330000; 30064596207143770000; 28139123844735980000; 26330062798725490000;
   24631449445106550000; 23037440019517366000; 21542347870066810000; 20140670302058610000; 18827107221127232000; 17596573317638130000;
   16444205175002960000; 15365364402822856000; 14355637674047425000; 13410834369864800000; 12526982396476230000; 11700322626410610000;
   10927302327604041000; 10204567871492161000; 9528956953258050000; 8897490510357053000; 8307364487308865000; 7755941563778661000;
   7240742937791084000; 6759440235438549000; 6309847601784260000; 5889914014114281500; 5497715847693815000; 5131449715269316000;
   4789425594354464000; 4470060250539359000; 4171870960417609000; 3893469534030251000; 3633556633810202500; 3390916384736763000;
   3164411268662381500; 2952977294458453500; 2755619434664902000; 2571407318655143800; 2399471171889325200; 2238997990580438000;
   2089227941002663700; 1949450972698464600; 1819003634965291700; 1697266086202927000; 1583659285961271400; 1477642359831498600;
   1378710127658665000; 1286390785912105300; 1200243735422483500; 1119857546075473400; 1044848050436029800; 974856558659944200;
   909548187427803400; 848610296007478000; 791751022913283900; 738697916981162400; 689196657018504300; 643009854513994400;
   599915934206240900; 559708087609993900; 522193294885121000; 487191410706277100; 454534310050650450; 424065090067316740;
   395637324425125550; 369114366756908080; 344368700026573000; 321281328842875100; 299741211929618500; 279644732137413360;
   260895201547227000; 243402399371342360; 227082140503519470; 211855872707473070; 197650300561829700; 184397034400859900;
   172032262603943370; 160496445693377740; 149734030800098840; 139693185150602450; 130325547316160980; 121585995047659080;
   113432428596403280; 105825568493338600; 98728766826594310; 92107831120416980; 85930859977609850; 80168089702856530;
   74791751175961820; 69775936292356830; 65096473333377150; 60730810671029790; 56657908251426520; 52858136337921180;
   49313181029442520; 46005956101698094; 42920520748988200; 40042002832459616; 37356527266855210; 34851149202319160;
   32513791680695617; 30333187467122244; 28298824777671524; 26400896642419570; 24630253660710614; 22978359921624930;
   21437251877811514; 19999499974998334
  ].
(** _GDF_lgM, magneto-disk.hpp lines 82-281; times 10^18. *)
Definition gdf_lgM_digits : nat := 18.
Definition gdf_lgM : list Z :=
  [
   -1000000000000000000; -984924623115577900; -969849246231155800; -954773869346733700; -939698492462311500; -924623115577889500;
   -909547738693467400; -894472361809045200; -879396984924623100; -864321608040201000; -849246231155778900; -834170854271356800;
   -819095477386934700; -804020100502512600; -788944723618090400; -773869346733668400; -758793969849246300; -743718592964824100;
   -728643216080402000; -713567839195979900; -698492462311557800; -683417085427135800; -668341708542713600; -653266331658291400;
   -638190954773869300; -623115577889447300; -608040201005025200; -592964824120603000; -577889447236180900; -562814070351758800;
   -547738693467336700; -532663316582914700; -517587939698492500; -502512562814070300; -487437185929648240; -472361809045226100;
   -457286432160804000; -442211055276381900; -427135678391959870; -412060301507537700; -396984924623115630; -381909547738693460;
   -366834170854271400; -351758793969849300; -336683417085427150; -321608040201005100; -306532663316582900; -291457286432160900;
   -276381909547738600; -261306532663316600; -246231155778894500; -231155778894472360; -216080402010050270; -201005025125628100;
   -185929648241206030; -170854271356783970; -155778894472361820; -140703517587939720; -125628140703517580; -110552763819095530;
   -95477386934673460; -80402010050251270; -65326633165829180; -50251256281407040; -35175879396984960; -20100502512562922;
   -5025125628140743; 10050251256281438; 25125628140703520; 40201005025125615; 55276381909547620; 70351758793969680;
   85427135678391980; 100502512562814020; 115577889447236110; 130653266331658160; 145728643216080260; 160804020100502510;
   175879396984924580; 190954773869346700; 206030150753768700; 221105527638190800; 236180904522613060; 251256281407035150;
   266331658291457200; 281407035175879300; 296482412060301350; 311557788944723630; 326633165829145700; 341708542713567760;
   356783919597989830; 371859296482411900; 386934673366834200; 402010050251256250; 417085427135678300; 432160804020100300;
   447236180904522660; 462311557788944700; 477386934673366800; 492462311557788860; 507537688442210900; 522613065326633200;
   537688442211055300; 552763819095477300; 567839195979899400; 582914572864321500; 597989949748743800; 613065326633165800;
   628140703517587900; 643216080402010000; 658291457286432000; 673366834170854300; 688442211055276400; 703517587939698400;
   718592964824120500; 733668341708542600; 748743718592964800; 763819095477386900; 778894472361809000; 793969849246231000;
   809045226130653100; 824120603015075400; 839195979899497500; 854271356783919500; 869346733668341600; 884422110552763700;
   899497487437185900; 914572864321608000; 929648241206030100; 944723618090452100; 959798994974874200; 974874371859296500;
   989949748743718500; 1005025125628140600; 1020100502512563000; 1035175879396984700; 1050251256281407000; 1065326633165828900;
   1080402010050251200; 1095477386934673400; 1110552763819095300; 1125628140703517600; 1140703517587939400; 1155778894472361700;
   1170854271356784000; 1185929648241205800; 1201005025125628100; 1216080402010050000; 1231155778894472300; 1246231155778894500;
   1261306532663316400; 1276381909547738700; 1291457286432160500; 1306532663316582800; 1321608040201005000; 1336683417085427000;
   1351758793969849200; 1366834170854271000; 1381909547738693300; 1396984924623115600; 1412060301507537500; 1427135678391959800;
   1442211055276381600; 1457286432160804000; 1472361809045226200; 1487437185929648000; 1502512562814070300; 1517587939698492100;
   1532663316582914400; 1547738693467336700; 1562814070351758600; 1577889447236180900; 1592964824120602700; 1608040201005025000;
   1623115577889447300; 1638190954773869100; 1653266331658291400; 1668341708542713200; 1683417085427135500; 1698492462311557800;
   1713567839195979700; 1728643216080402000; 1743718592964823800; 1758793969849246000; 1773869346733668400; 1788944723618090200;
   1804020100502512500; 1819095477386934300; 1834170854271356600; 1849246231155779000; 1864321608040200800; 1879396984924623000;
   1894472361809045300; 1909547738693467200; 1924623115577889500; 1939698492462311300; 1954773869346733600; 1969849246231155900;
   1984924623115577700; 2000000000000000000
  ].
(** _mag_disk_lgr_cgs, magneto-disk.hpp lines 283-334; times 10^15. *)
Definition mag_lgr_digits : nat := 15.
Definition mag_lgr : list Z :=
  [
   10848169570835784; 10859134940659754; 10870074926723767; 10881024445344949; 10892014860573570; 10902960824351105;
   10913932586562831; 10924885589614927; 10935849530806330; 10946782718423142; 10957747351495597; 10968701922991093;
   10979672130541898; 10990619207942363; 11001598376550799; 11012541808644304; 11023502686468719; 11034473015147212;
   11045418140670069; 11056386299037793; 11067343189763033; 11078308158407944; 11089273885393192; 11100233583579648;
   11111180971585332; 11122155880852876; 11133105061156007; 11144067072845790; 11155034255291215; 11165999496834365;
   11176956208086006; 11187917905354803; 11198877500606399; 11209828426388320; 11220800970148407; 11231751357399867;
   11242726355139570; 11253683711514125; 11264634430356110; 11275604340647527; 11286554052882085; 11297524045042640;
   11308476386274090; 11319449114113315; 11330405747553595; 11341368290509594; 11352329586046014; 11363283001336885;
   11374247938779753; 11385216827666545; 11396170502356474; 11407138874434713; 11418091050861483; 11429055269554718;
   11440012949137856; 11450979250735724; 11461936378713407; 11472898633793685; 11483858916623660; 11494820322287687;
   11505785477008327; 11516747376569930; 11527708501188307; 11538670928113387; 11549627836558274; 11560589540756814;
   11571557073050790; 11582515368800047; 11593473798201227; 11604440663817700; 11615401288439617; 11626363695446413;
   11637321029082731; 11648287323813870; 11659248568932400; 11670211327424838; 11681168762508480; 11692132969450066;
   11703096725339726; 11714053334825183; 11725019377464438; 11735976329948514; 11746939791904984; 11757902560943975;
   11768863107815829; 11779824908960997; 11790786041558361; 11801749373604363; 11812712669638277; 11823673741324356;
   11834634874279510; 11845589340559274; 11856577176723405; 11867539967739933; 11878472813398043; 11889449203648311;
   11900421194134589; 11911382362712050; 11922326774842409; 11933284204159880; 11944246985192802; 11955208001237065;
   11966193332309162; 11977130717499827; 11988110171112153; 11999061284942945; 12010038493744526; 12020975540912490;
   12031952924041686; 12042906182684074; 12053883767666619; 12064825082063201; 12075802241287263; 12086756372253914;
   12097730715845660; 12108693515977668; 12119638887874599; 12130606159734352; 12141565181622607; 12152531110137410;
   12163496709334314; 12174455271636093; 12185420314338222; 12196384634231306; 12207341554757887; 12218303184290477;
   12229262455116684; 12240230203724364; 12251182125111157; 12262145724402770; 12273113422065032; 12284078183714346;
   12295033493402089; 12306003210328143; 12316964975735120; 12327926850615425; 12338882102161435; 12349851513621276;
   12360814143954979; 12371776602964212; 12382732177253837; 12393699074288810; 12404657829358868; 12415625533648030;
   12426583480158525; 12437547736397573; 12448511113064750; 12459466946744339; 12470429537620419; 12481391666859887;
   12492356371108444; 12503316732602823; 12514275595323376; 12525244386898704; 12536206851774612; 12547165300215903;
   12558130028665788; 12569093849113667; 12580050099412839; 12591015870994660; 12601976179498044; 12612939440797640;
   12623898712228932; 12634861578559262; 12645827883264708; 12656783980742677; 12667749884781703; 12678711814056324;
   12689675685750430; 12700634629759175; 12711599902189624; 12722558584825238; 12733521188246737; 12744486144237714;
   12755446550795766; 12766406369234682; 12777369015106740; 12788332477063209; 12799294766266778; 12810258600225827;
   12821221700036292; 12832181840619496; 12843123840638675; 12854088859701895; 12865072612470259; 12876026755189440;
   12886985946776026; 12897943099246671; 12908928925064528; 12919861863395438; 12930845433214062; 12941800055082410;
   12952754828220760; 12963735889700898; 12974702521618994; 12985649043040077; 12996600686395288; 13007580076813376;
   13018549469798035; 13029502856270376; 13040462231440577; 13051420438477086; 13062397026394470; 13073358373744474;
   13084323760771083; 13095261889203108; 13106239068290597; 13117199541959486; 13128160308710264; 13139114624363788;
   13150077643271901; 13161042003902681; 13172000879063532; 13182967784104557; 13193935399328872; 13204896937666721;
   13215864505864172; 13226812999496447; 13237789557148993; 13248751286782126; 13259709167095082; 13270672968821552;
   13281635531822902; 13292590220345916; 13303560948262454; 13314510502642051; 13325476583311243; 13336437322674346;
   13347399970327045; 13358370905010934; 13369329867017125; 13380296194069880; 13391250337954977; 13402210420812263;
   13413180961920755; 13424143075069747; 13435101748701270; 13446061337111557; 13457025605726987; 13467987484059030;
   13478950454811320; 13489907711508598; 13500872033134520; 13511836175193183; 13522802491458508; 13533764090443672;
   13544723214961603; 13555681733888772; 13566649370081290; 13577610728997579; 13588575134557013; 13599535635149245
  ].
(** _mag_disk_lgrho_cgs, magneto-disk.hpp lines 336-387; times 10^16. *)
Definition mag_lgrho_digits : nat := 16.
Definition mag_lgrho : list Z :=
  [
   -27152635050857800; -27114564773596520; -27157736396180883; -27314689820458367; -27614082652385026; -28140202802923477;
   -28929999701094180; -29974777673063450; -31430203359765394; -33289490056862174; -35600302786958000; -38103927513461830;
   -41378971589717600; -44727234379051980; -49278783063748290; -54235088874936270; -60263160597817660; -66981027257268380;
   -73697120016300940; -81961783078525910; -90077533137231850; -97766457006028440; -104201150157306120; -108849381175868880;
   -112485185756794570; -114645848433098260; -116087564548557920; -117053922736861150; -117815225622331270; -118481716958873180;
   -119056701979679960; -119685894104954880; -120271342190573240; -120895469180631500; -121470548914107250; -122038313863717850;
   -122636761850653850; -123202222139643740; -123769621724872770; -124279149061664520; -124721647659926040; -125167344335576000;
   -125481872817131310; -125814098127103420; -126175554841260240; -126240154196291310; -125591693193288150; -125131716585363830;
   -125895394831893400; -125897621901553820; -125301463097520640; -126769406542975420; -126870940685694610; -126905721209344480;
   -126600419822753190; -126883701160783230; -127005600756359060; -126820664020832780; -126884899379805610; -126354595739339680;
   -125802251740953820; -125614292614791140; -125349723185843360; -125305904020583170; -125833809664389110; -126007192248252980;
   -126219884907880840; -126002951568707160; -125155793586400050; -126024196496358860; -126000343976422860; -125039332483928740;
   -124916763031839170; -125030461873861300; -124927948987331680; -124695751342251540; -124274109698243720; -124264266954393940;
   -124710495735651850; -124149563769889270; -123489346673931930; -123652864211103730; -123153058448374220; -123074937984604740;
   -122521014271662310; -121719730479299950; -121805948662476040; -121444903781343920; -121273674843488730; -121213193999160660;
   -120830180025516630; -120973515904866280; -120766346031309980; -120346653481773270; -120291338694490640; -120468276288942580;
   -120516586221502050; -120842086395138110; -120643987906307150; -120306330857718000; -120064721099624340; -120012780368310510;
   -119889929643778640; -119866850408259800; -119889530685069300; -120027910303461150; -120120150359961300; -120162510165744380;
   -120050787303709950; -119869391070749240; -119737898703675080; -119676843685619850; -119577474617834820; -119566572659593340;
   -119274764320349750; -119263213836410140; -119363552433341520; -119264042787689580; -119219299170020710; -119055648266472820;
   -119075977290419530; -118913144040762030; -118741592720162150; -118576325273006900; -118591210726073500; -118675694391339300;
   -118846556332896980; -118952061756863840; -119011165326282460; -119083128243239680; -119101123850831800; -119213286092121340;
   -119204554632251330; -119160416636096900; -119145265286342480; -119116188491189870; -118995680585050980; -118936145288160980;
   -118962683750598970; -118807759979975550; -118879754187112230; -118762223450723200; -118620480244395600; -118449697802933860;
   -118400210048345900; -118418879646828300; -118402758907777200; -118325377747894630; -118286039712507880; -117892115118559440;
   -117663310633380540; -117618242561533570; -117704507243654230; -117897508359880860; -117839294293203360; -117892014374046890;
   -117845220237759420; -117859195615852970; -118225407781737810; -118416719175720300; -118332396245031790; -118475547715482550;
   -118499350431180900; -118504567460861700; -118596835574443040; -118452677053342100; -118365300043110280; -118529930172462700;
   -118732903155979500; -119055648266472820; -119087769417039930; -119099992780316660; -119060919390957740; -119072736755528810;
   -119086708139950200; -119080941980384840; -119112183931368070; -119173523037912870; -119326389104864700; -119334526560588400;
   -119394624271709180; -119650333597955960; -119875987849617100; -120127476673187520; -120282071224073400; -120365130723790280;
   -120430427256014880; -120496078254360430; -120643703138601310; -120915430752385990; -121210164918083000; -121399143327594740;
   -121581144651839800; -121839070656895280; -122179832839960820; -122520868027329830; -122824607420793230; -123123556351602360;
   -123377478672325050; -123541752808634620; -123605111060905610; -123743187679094680; -124045699849857290; -124380062060500250;
   -124723832911607250; -125154452467648380; -125560368060826410; -125793543455671930; -125953995455691030; -126086567278512050;
   -126268829724676730; -126622926064963150; -127093977080020490; -127447187080359740; -127711218223893430; -127949106502828370;
   -128111232542852900; -128209175296408770; -128306994121195290; -128449812351704600; -128589199391362320; -128637311765524800;
   -128764809196630420; -130735116737417900; -131371782026036900; -131513243669920410; -131611522045024430; -131679182073252430;
   -131715962302694830; -131728616863401600; -131709527499784100; -131660788142524000; -131582676160017920; -131464696738421000;
   -131330782615458230; -131507565329455100; -132406562014066540; -133295953423431490; -133597234231765340; -133814104842426450;
   -134074883614981870; -134312158682088800; -134564788804864610; -134810917950432070; -135058439639762750; -135299244337746210;
   -135552424992728130; -135792611459927650; -136044887390685360; -136288981024791220; -136532119111900220; -136776803429848160
  ].
(** _mag_disk_lgH_cgs, magneto-disk.hpp lines 389-440; times 10^15. *)
Definition mag_lgH_digits : nat := 15.
Definition mag_lgH : list Z :=
  [
   10848075643604924; 10859041013428895; 10869980999492908; 10880930518114090; 10891920933342709; 10902866897120246;
   10913838659331972; 10924791662384067; 10935755603575469; 10946688791192281; 10957653424264736; 10968607995760234;
   10979578203311037; 10990525280711502; 11001504449319938; 11012447881413445; 11023408759237860; 11034379087916351;
   11045324213439210; 11056292371806933; 11067249262532174; 11078214231177084; 11089179958162331; 11100139656348787;
   11111087044354473; 11122061953622016; 11133011133925148; 11143973145614929; 11154940328060354; 11165905569603504;
   11176862280855147; 11187823978123943; 11198783573375538; 11209734499157460; 11220707042917546; 11231657430169006;
   11242632427908710; 11253589784283264; 11264540503125252; 11275510413416667; 11286460125651226; 11297430117811780;
   11308382459043230; 11319355186882456; 11330311820322736; 11341274363278735; 11352235658815156; 11363189074106025;
   11374154011548892; 11385122900435684; 11394759501521097; 11398890704883932; 11407632630714433; 11416116357588430;
   11425771740824638; 11435334220560614; 11444781787143063; 11454119894033406; 11462731996398743; 11470938504827776;
   11479801382631994; 11489062023594300; 11498218732814381; 11507075944557132; 11515521578834330; 11523798521418685;
   11531874867796851; 11539666568336468; 11547237781244112; 11554578784923807; 11561886796172427; 11569074751168825;
   11576010356859427; 11582716309875057; 11589465576967445; 11595947978227926; 11601904109615715; 11606738535991182;
   11611126998743186; 11614798588944783; 11617839135337732; 11617677755077358; 11607869925123934; 11601046390616707;
   11592961951937154; 11568488995032679; 11536681618030764; 11497787305486849; 11469442565476122; 11440802219930523;
   11415641174603357; 11372660033105847; 11315258567836619; 11266392433459302; 11240596969464965; 11228198341994355;
   11239045911056564; 11249944901590263; 11260826446594812; 11271724125213119; 11282625589553096; 11293523722215570;
   11304444407773413; 11315322374920958; 11326241641807325; 11337131180212520; 11348045079231415; 11358917426557747;
   11369832353190018; 11380725495208475; 11391641280328134; 11402519415372074; 11413431558298605; 11424325461596228;
   11435238685857518; 11446138859938950; 11457020098382415; 11467926129812170; 11478825335089740; 11489729870228114;
   11500632498582307; 11511526511856326; 11522088139626176; 11531718435303983; 11541303683257750; 11550853243008305;
   11560359649520143; 11569830921032818; 11579244714246025; 11588623242138864; 11597958999725800; 11607251246818254;
   11616485755482396; 11625680907253367; 11634816148874416; 11643896415177688; 11652914262210409; 11662481708951974;
   11673382767818795; 11684282072900174; 11695172910081642; 11706073336200532; 11716963960674380; 11727861723933770;
   11738749607759269; 11749649520020125; 11760546902617087; 11771435091350774; 11782333700422030; 11793233670065302;
   11804134600947771; 11815029574565510; 11825921376817954; 11836821319865132; 11847713204607489; 11861937677101913;
   11879724694860343; 11897570142778292; 11915462466885558; 11933428927928931; 11947889641729466; 11958794735921233;
   11969694366671142; 11980596038887738; 11991499555741024; 12002391310525846; 12021915255520778; 12043618660787294;
   12065316415282307; 12086994383286717; 12100901826865064; 12113752067091413; 12126646197226046; 12139583025996806;
   12152555018703634; 12166767745385942; 12181191160227453; 12195673777723181; 12210213395318245; 12224814030684954;
   12237429548753669; 12248340890354404; 12259232921982026; 12270146582115462; 12281077564821393; 12291977726481038;
   12305103684455766; 12320628737331370; 12336258328769558; 12351876269055062; 12367630447796165; 12383406911297744;
   12399247287199751; 12415175741756010; 12427275157989877; 12439377956836037; 12451512483455806; 12463704432493227;
   12475912470378297; 12488130332197976; 12500070151042825; 12510985507189188; 12521918069787388; 12532834323359529;
   12543753441415653; 12554644231659925; 12565572683770103; 12576986578881803; 12592691607619999; 12608450474505550;
   12624284943233782; 12640184379412412; 12655550650796260; 12666477117041670; 12677403252266677; 12688322269073204;
   12699246199779166; 12710150013689551; 12721080626710288; 12732363436537720; 12744349792032300; 12756366141640830;
   12768405124053226; 12780459898911696; 12792557292983780; 12804656743151780; 12816800388098303; 12828964553437395;
   12841157780114678; 12853387714759485; 12865632278068386; 12877913583639572; 12891417362162976; 12906101858118681;
   12920859056954129; 12935663838807049; 12950523089951446; 12965442914107749; 12980428677289796; 12995525982721944;
   13012199844589310; 13028923987042848; 13045717329389962; 13062568192622784; 13079479529073902; 13096439967538423;
   13113452155251210; 13129320524958173; 13140288161150691; 13151249520066980; 13162213925626414; 13173174426218646
  ].
(** _mag_disk_v_cgs, magneto-disk.hpp lines 442-; times 10^13. *)
Definition mag_v_digits : nat := 13.
Definition mag_v : list Z :=
  [
   24348078260999755; 41454702211615960; 46768416205963000; 44088083861101360; 26683184904565460; -14572667303104040;
   -98071717224149420; -233455428244363570; -392783993906463800; -535141264092855850; -675040527286020800; -734170785403988700;
   -634621502178292700; -582879074068057900; -799570342257490800; -1053573604242988500; -1317312231005031500; -1276078473242245000;
   -1130420845351463800; -1063833712085503600; -992551509281918800; -594492466659653150; -1058793416846583000; -193782090651434630;
   292406168997657550; 770902800021876300; 1296225845169876000; 1607647045794913400; 1882584794306996600; 1994576011807398200;
   1924702329865101000; 1988085768623034500; 2047878860087490800; 1953977469334996000; 1845576599128072300; 1666749685856778000;
   1469280584715502300; 1752365659778169600; 1450914577406559000; 1250642243570760600; 1131760321072492000; 1184731752679340100;
   1118614126367142700; 994926662106834800; 992330564833089400; 1023014225164272200; 1037168478917405600; 960749317678537300;
   969255678958469000; 1004109665761306800; 1198692680039748200; 1393469020710914600; 1773493472697481000; 2182654973873424000;
   2494186646722876800; 2646224045573606000; 2612253836566086400; 2439088624796045500; 2138604174388062700; 1807325591424482700;
   1531006940107215800; 1498417633904879300; 1579614718849683400; 1977176636462083000; 2923095058012947000; 4209544111322122000;
   4331201648458809000; 3852028375060051000; 2674808733640910000; 1795587917580421000; 774092685501850800; -813006526551928700;
   -3155362909844852400; -4579349882550327500; -4910352284952871000; -6478919781361085000; -9630278073070905000; -14035496111887563000;
   -18654615995227180000; -22475574057170595000; -25907117528052200000; -27482727628766852000; -25496989394912627000; -21909403907045266000;
   -16905012141059380000; -9533752966988560000; 640255585623442400; 12630427507613103000; 24247272356221340000; 35203355212549157000;
   47675669348968720000; 59505863680977850000; 69750781592636020000; 79999842212709775000; 88841762874301280000; 94442704652126540000;
   99757799549278770000; 104781523954537230000; 108973944871075060000; 113431499126208180000; 115719655074397660000; 116716666899740320000;
   116925183223323060000; 117588016569811250000; 117477544345396550000; 117082606143114000000; 115736225908059850000; 114264183517733980000;
   112354394938164870000; 110240232743428550000; 108628719169779140000; 106974397609169020000; 105481641676765380000; 103834224630181170000;
   101558496807238390000; 99895889829797150000; 98582651262067400000; 97352266862648690000; 96399443927071910000; 95453525505521040000;
   94731313338409940000; 93931770614208560000; 92991375803878420000; 91827274739108530000; 90603794853715730000; 89867773658552800000;
   88739576066717700000; 87451193749481250000; 86614366649539900000; 85176846829343620000; 83592951311797890000; 82388804065677650000;
   81357269670205400000; 80803527645326700000; 80496967222575910000; 79847942904139560000; 78895119968562780000; 77572215081196750000;
   76195454984428575000; 74655748356648700000; 73738828894006680000; 73041472977388890000; 72406257687004380000; 71841468439684220000;
   71124779883793860000; 70097388196737150000; 69021664911499020000; 68385068718309320000; 67720854469015930000; 66629941252920780000;
   65258704767373320000; 64152601620421140000; 63238443963389510000; 62099199149112920000; 60896432805797880000; 59997465079623260000;
   59548671667938540000; 58901028252307370000; 58551659842595880000; 58616562274439520000; 57952348025146140000; 56328406326250050000;
   55759474370514350000; 55104926440857260000; 54065106628553900000; 52771200700096730000; 51611242343742400000; 50528614544478340000;
   49635170429524450000; 49392131535812110000; 49184996115034560000; 49267850283345580000; 48315027347768810000; 47648051292865050000;
   46878888430377700000; 46703513774119360000; 46477045714069230000; 46006157857501580000; 45155521729508400000; 44372549838969210000;
   43604767879287050000; 43088310230148320000; 42400620633166820000; 41911781040131780000; 41643885895926133000; 41156427205696280000;
   40406596982481500000; 39587721619007540000; 38826844173351293000; 37955494503280357000; 37550889981361520000; 37005433373313940000;
   36239032316436963000; 35704622930830857000; 35210259726575078000; 34819464232708076000; 34481143045438060000; 34068253106688120000;
   33506225664978335000; 32964911765346310000; 32441549602181670000; 31938900981094790000; 31462489513306400000; 31092407561517153000;
   30733372832169380000; 30330149213055726000; 29933830107967993000; 29555462739347650000; 29186761690363590000; 28833250572236553000;
   28449359592395470000; 28102752988294350000; 27736813744920660000; 27352922765079580000; 26989745327316257000; 26632091500773663000;
   26274437674231078000; 25927831070129955000; 25601938008106593000; 25278806751693600000; 24992959871020564000; 24705732087542345000;
   24451645971388533000; 24136800131806643000; 23751528249160373000; 23374541783345216000; 23023792470828546000; 22667519547091140000;
   22331960165431490000; 22003305297797760000; 21682935846995130000; 21381899035465075000; 21102956668817960000; 20833680621807128000;
   20582356311263684000; 20337936514746165000; 20090754912618275000; 19807669837555610000; 19532870179324043000; 19273260451949500000;
   18991556279692020000; 18737470163538207000; 18469575019332562000; 18211346194763200000; 17955879175804208000; 17708697573676320000;
   17453230554717325000; 17214334369420540000; 16965771864487466000; 16729637484801044000; 16496264910724992000; 16264273239454124000
  ].
