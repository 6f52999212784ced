(** Data: the certificates of PspInt.v, one for each k (first component). *)
From Coq Require Import Uint63 List.
From Verif Require Import PspInt.
Import ListNotations.
Open Scope uint63_scope.
Definition certs : list pcert := [
(3, [1], [15], [3]);
(5, [1], [159], [3;5]);
(11, [13], [3589617], [3;11]);
(13, [3], [10140137], [3;3;5;13]);
(15, [1196], [119857731;23], [3]);
(17, [87], [1168202367;20], [3;5;17]);
(19, [261896], [1474397313;757574], [3;3;3;19]);
(23, [4183172], [1412740101;1815820586], [3;23]);
(29, [1988], [1592217987;1586323499], [3;5;29;113]);
(31, [14956], [894128189;164227579;68], [3;3;11;31]);
(33, [2250980], [1147106559;381241825;125513], [3;5;17]);
(37, [19641], [389270021;1828886166;164343], [3;3;3;5;13;19;37]);
(41, [2142539514;511], [1772285601;11777833;431921063;642880], [3;5;5;11;41]);
(43, [1106059942;2046], [83740643;1823720713;1645043636;31478430], [3;3;43]);
(47, [1222417419;55], [434768413;1905374201;1368847980;128263978], [3;47]);
(51, [2132888772;107], [1116207457;1556016400;1539143176;898574887;17], [3;11]);
(53, [1932362203;6], [2004163823;458778074;2081301950;1359049120;13], [3;5;53;157]);
(59, [1319978281;134209531], [1608948673;609806560;1758874299;907448729;2130213185;226], [3;59]);
(65, [1748215356;3305565], [1133271295;1231914849;897659656;1161349732;753531167;10277], [3;5;17]);
(67, [841706672;433032], [259831085;946480141;1267827615;292115650;1510531046;16492], [3;3;23;67]);
(69, [666864644;26996565], [436243079;687372494;143694888;1407277764;2138272609;12595518], [3;5;137]);
(71, [962945850;11332630], [1222033031;442864326;1914079501;2096578453;843955505;64770070], [3;11;71]);
(73, [1969053777;8711], [1254907661;1280069214;903951753;1370230544;1942526642;609948], [3;3;3;5;13;19;37;73]);
(79, [1034118869;1878518834;29], [1048243255;1500573849;578480073;1220149472;1948191538;943479706;3844964], [3;3;79]);
(83, [1042539149;79673410;1047308], [287170825;368832021;1597977537;1670359846;1341545042;163930489;2145073640;9418], [3;83]);
(85, [904705189;18386417], [73680711;171599732;872570270;205136507;598853655;1769840565;2025645], [3;3;5;13;29;43;113]);
(87, [861232593;1849230264;2125129], [658979827;1185967010;501667982;2057292518;1172071925;664248550;429581152;2868058], [3]);
(89, [1931160340;1746053740;91], [1025043185;445462574;803074146;1292327920;399544689;416642642;1932146546;1517], [3;5;23;89]);
(95, [1086907559;1898813096;206459764], [1930537299;549286383;1359054625;1394612212;1749481663;1326337795;459235731;1745713581;2921], [3]);
(97, [1058321483;1915934822;2147483638;7], [1250363385;744324518;948330267;1051109147;1028205136;316183007;547001975;1478740485;2978330], [3;3;5;13;17;97;193]);
(101, [164191201;700111065;275669], [1932856593;1520531522;997880130;471930052;109761581;1913736202;20908885;1204354204;7171], [3;5;5;5;11;101]);
(103, [987201541;1934928335;285902587], [875349199;1754325609;592507312;1863742530;391841278;1915224479;789856223;1995307720;91112804], [3;3;103]);
(107, [980119845;943152348;2039995958;8182], [787957649;1800725519;1462187458;387155713;610519002;1710602500;1874142671;169597929;502041615;391330], [3;107]);
(109, [140489166;233861733;68424], [932490819;1140809029;279387732;1578747032;1509369676;2048543497;2083180168;116613476;40084710], [3;3;3;3;5;13;19;37;109]);
(113, [2014854231;1286812305;1545189887;524287], [219968179;1798694564;798050888;1615146980;1930601246;872174704;754249878;1217904055;566215248;993347589;21], [3;5;17;29;113]);
(115, [1357018145;1682780097;1402853566;116047], [1907426137;1290466539;1183352884;842491260;1444497846;2044603478;25752683;1315902276;1519769997;418381421;58], [3;3]);
(123, [1720739424;187366350;284685703;457304819], [1320998403;1845105642;892344200;1451125080;186492000;1119083439;861226204;79329971;294062412;398871925;869174157;2], [3]);
(127, [1076697231;1075962592;1067416554;914], [394170149;1439320302;614007854;1471583798;1925111990;1254428351;1128731513;1220409714;1035400247;366095550;1549697], [3;3;3;19;43;127]);
(131, [908046493;1074695841;567486960;2137543266;63], [101250931;1494065169;2059425414;753634549;203419398;2111784734;705642023;1925875628;873623112;589598938;300156433;16273661], [3;11;131]);
(137, [1369207628;1288834063;1027826767;560422618;4095], [723285767;911208485;1488002617;1177835921;1125698742;1041098382;1859827486;812224494;773738934;332506242;1801705935;965043877;891], [3;5;137]);
(139, [81447907;89187345;2024322679;1906273930;16383], [1748192989;363196003;501797657;1998568115;747640155;1308284897;1190732704;1454542223;1525599404;178834808;409405042;1294891707;43688], [3;3;47;139]);
(141, [1512083671;2042693997;1022226248;471], [1384952875;571743368;990757147;372431996;1144785825;1021549129;1230473493;894141839;555066076;915914573;1992444602;15400], [3;5;5;11;29;71;113;281]);
(143, [224187353;1923806245;1333716258;1490568068;25857], [928342579;1165176027;584090923;1617796800;1935215933;1030275960;1395911462;455273541;1048159968;574679097;664387751;948229285;10346969], [3]);
(145, [344083743;2035090729;250632972;2146851156;1048575], [2076999197;1545519901;1584106709;883120878;1917641424;1020760739;424505467;1516451698;1513007219;347632153;98517427;219958079;844988392;2], [3;3;3;5;13;17;19;37;73]);
(149, [435790234;262094341;914060330;640255806;10], [1581514789;6834758;1341375559;865862503;608593048;1030429005;791660374;261197722;1206108515;210129963;392537059;1421240737;7575137], [3;5;149;223]);
(151, [943745469;641866762;1228119986;1937100810;67108833], [1810488683;855376525;1379713488;959541201;1988360218;538990084;1387618964;307660092;1954548507;751197087;428254743;329832579;455269599;281590], [3;3;11;31;151]);
(157, [159453657;908239592;1821159345;1691446819;2147483647;1], [1349719995;482856680;1848245181;1136704678;1230737752;223372354;681393515;1003029607;1121217901;1799392427;475858435;1535008308;467244823;916566988;15], [3;3;5;13;13;53;79;157]);
(159, [1647861930;1077531951;1074221388;1044529590;541928365;1], [560742371;1275990932;456932584;821008407;397805269;374581211;734075681;1838829320;976199071;785111959;1600762034;867439252;1389180979;717345535;118], [3]);
(163, [355705372;1846447644;1044327445;879061469;172820], [75371131;782246829;2016245853;231329165;242083082;279517364;1124495734;1497212774;930582788;1698517964;2038549940;988293075;1335210394;302986543;1], [3;3;3;3;3;19;163]);
(167, [22022030;628939558;1915414090;2140328298;1707138952], [1958241813;959019198;451604400;517646169;1083755159;2056473895;378559574;1684474219;1664990652;533937991;1431473676;52274322;2058617866;2106270509;1691474], [3;167]);
(173, [2144843150;564398502;673139667;1348545765;1487161421;131062], [1237223011;16563489;1815461535;573202532;1221009659;1711371086;1730583557;1624567393;1754846051;1649566905;1895914678;211498821;995096336;1091596129;838289941;238717], [3;5;173]);
(177, [407688474;215154388;1166312167;2026410553;1192365433], [2094907905;1822476591;515388935;327460482;323035993;1173597603;1434166570;1778595520;706252718;1184463392;323367300;1342557428;1852520225;6598896;1631595240;151], [3;5;17;23;89]);
(179, [323527981;579018604;1111847401;1028971128;459892448;8385398], [1506027305;136823770;1479190186;2012047522;87970687;1941667875;78947571;829924695;1439989945;1225230424;455420149;1023346006;1218696710;433711965;144666701;158822245;13], [3;179]);
(181, [1604917715;1576036198;1919601643;955368558;2147482184;33554431], [1868509357;972742903;2027742330;1820520357;106427323;1801043819;1337630641;848750907;2023977207;1614658355;895692430;407468124;2101636407;1940821164;1462549303;1866444546;640], [3;3;3;5;5;11;13;19;31;37;61;181]);
(185, [1049837210;1593390219;1697701010;950551940;1404941740;536870868], [600452793;1937651903;1946170885;1889840478;1731918707;269495068;960810549;145795903;2090312051;2101302558;1400680549;2123584599;758715707;795394902;1581583842;1415677712;1538726], [3;5;47;1657]);
(187, [1348246422;200720791;912349500;101256458;1291886474;2058049997], [1535145065;25341461;740441939;1306591241;1524321117;879950521;110926789;1333328502;1913867073;333779857;382513758;1083690537;2030922505;393982216;1643512762;751514611;72257619], [3;3]);
(191, [902094932;1173287168;617860206;1158301723;1936716729;2146321114;15], [78138463;514323408;1650089029;299932170;461965965;589328789;653438260;1683458369;1788485063;696800879;112540392;1653562211;948281874;512378206;1645110605;862271931;634915927;84], [3;11;191]);
(193, [1363384699;1878088801;1152526341;1176247728;1066646734;54], [472763641;1798795204;1051589528;1269940584;2122984816;1435349325;404820480;1138563736;318439039;1560022499;1644571826;1256498571;71199670;430126679;1492542656;587814414;3517], [3;3;5;13;17;97;193]);
(197, [1968133734;1735721614;2107955893;189784125;1274792558;2147468856;1023], [405944847;1216959619;859578907;302680803;1324481448;827247837;832640675;1990455459;730525729;585673678;2062070944;1150458890;1291598468;358661915;229693036;2094203227;201146739;9917635], [3;5;29;113;197]);
(199, [815446421;1961003935;450671306;1700660799;312312222;2147458145;4095], [1096105747;549079963;481677739;652504198;2085297098;1831163417;1128170179;929723200;1744055310;158961047;1549086593;1964921675;1504002816;1974645447;502291173;213908736;965160186;485964121], [3;3;3;19;23;67;199]);
(209, [752482211;1896285691;1629875586;142291772;1779379835;372084365;4194303], [895717887;1647329457;726853773;159924695;1397440266;759889955;2011100933;225035409;1872499534;1220127738;2075415095;305141379;945137637;296361288;1337369388;291496436;1976162535;447191420;63922633], [3;5;17;53;157]);
(211, [551408191;1306876173;1522359696;1294479615;1345668725;2142245755;16777215], [1931416235;1441401069;974938501;549625460;467927672;1286192851;1254584807;1826417455;1698763189;751212904;1051734559;50892388;465449543;1817157784;1194290451;977383862;820177364;289549625;984725996;1], [3;3;11;31;43;71;211]);
(213, [1783507371;214837072;1797622976;779413690;156603436;1482573086;67089251], [473180325;577132131;37913312;642525218;1475633520;1526410190;275288313;594364767;489416748;126031914;1917239859;1696023093;1915516169;514419569;968957812;1750762173;436128352;2055904131;962080136;71], [3;5;107]);
(215, [1059436493;620414573;1316305642;1452157441;1803373255;540249279;225500135], [415349811;473684909;1774654109;34637154;1229987867;58967610;24612209;785950313;1147001220;1560405398;1788911822;113202848;2082264989;175683746;2138624008;1830598128;1295733504;512480593;1818379586;2941], [3]);
(221, [1840300760;1991035253;64425836;1879060512;1781802666;2117626208;24708], [38273109;1369174593;517174636;1060240902;1455644537;454108504;855258553;406562795;1829879418;1809204958;1163888125;1124211136;990110525;443009657;1192579479;711135131;1782181027;1339180778;1214597883;592], [3;5;5;11;11;23]);
(223, [1772313956;648828222;1979266605;998271330;2082048701;38176089;11755844], [915354263;1397137003;1997637813;869835574;950208334;933150389;82705947;1266867675;467184458;476135296;169170497;837838841;202923242;1226955074;364895498;1545036591;583570695;671544718;22112102;3453595], [3;3;223]);
(227, [969638466;777250600;845332581;939752876;1843255731;1646892104;1820739451;511], [575945801;1375621611;168321800;2036831273;1706153733;1146590726;248294060;1111636311;1415072829;1258700238;1702988157;1505512729;105276040;1293357163;569184804;1445899326;1666362152;230707330;2019802729;1624663459;22564], [3;227]);
(229, [61194779;2027241540;666352952;86228029;1964146329;1451539211;13048], [1862025301;410776242;775555152;596928528;186273058;1897473370;319814224;655305233;968244887;767848846;848047276;427237830;900028166;106773620;1847230456;1926092148;759736585;1747298038;1765615066;7046805], [3;3;5;13;229;457]);
(233, [1428160367;650726007;1692011730;1752979368;226484202;496295928;118169795], [783521085;190623253;569195760;1389106612;1292763684;566102513;397910996;766637684;510981847;493792354;2144118774;312330452;84037902;2013758916;481719217;1483302400;2070512419;1295327088;722812413;819843641;4459], [3;5;59;233]);
(235, [15438421;522152389;580882357;1861101064;76105905;463888466;191075383;131071], [1944198047;1926892072;608785089;1598173899;684615485;245633822;385507435;188193322;1563989549;1814408993;1423335327;168096477;1268529288;1289606945;1527811463;83952205;1410699332;1023580158;681088223;1867216598;1270075831;60], [3;3;3;19;79]);
(239, [131422184;1548169154;1559238335;894426159;1105533895;1462640522;388401321;2096218], [10490445;1789265084;76846066;126047305;991857445;690216534;2049434221;1820370;1181834997;2071932571;1385574602;1007515309;1443991046;575191144;2032180809;288783935;575313371;1905548138;958047891;1452546363;522291651;145416], [3;239]);
(241, [696963754;199244534;553273287;90640065;578620602;781065181;261], [1554230709;1681671152;1593576367;672842717;144717781;2093325686;1726574910;1198568918;1200116484;2030404915;828596507;1433626329;83661112;1828121502;836427055;465182199;348514913;514523513;2106426965;224914362;222], [3;3;5;5;11;13;17;31;41;61;241]);
(247, [1813273745;379750477;1394216591;2119031050;1844059951;2092015524;1521814323;41808], [803179483;266473103;385494993;1576177302;973531282;917986579;500523824;1791739663;579506639;1966874201;1458433685;804544289;967445418;906391619;1635105646;819742605;787818890;404243286;492261600;848650009;638323952;65311182], [3;3;83]);
(249, [1978567353;978761116;1991098894;229869565;893703143;1186858366;1830635261;2138176486], [1749330127;3880533;366027678;821039869;1799211385;946106062;1381105635;1442186993;1379659027;62285708;1646459982;2094374588;782835943;266670264;1848177861;1363253801;474573977;1417472067;1982940970;659937407;361149482;678056959;19053], [3;5]);
(251, [1574165933;1960612907;1147559802;325898700;2128564329;602887243;410026795;2147302162;3], [1216297899;1897243741;907067185;399916503;2071586854;291658928;89630333;1906897755;928987071;144252699;220279765;435558836;1999184928;848576411;928049861;1939098985;598584920;1100836237;146646593;1850128464;841583524;1149786198;937656], [3;11;251]);
(255, [1564967185;677975292;880590417;1599501520;189971310;753158037;662439382;1796681892;8], [1955033651;1718106662;717410682;1314732198;1238514577;524977184;170115283;1077067602;1010458447;1511645785;320000414;530568870;211236011;541225859;1651228615;1469178568;111781794;273163986;1585273366;896441469;1854229042;2033673372;310851211], [3]);
(257, [546586991;204302524;1105326242;1106560970;929947994;1632384297;1858313275;554420], [1457543167;1918650513;1096681092;1369329914;1162102456;1189172422;671556719;499496624;1127260648;1563805365;1185765290;1691826004;269360954;821077338;787781145;355890587;1670491878;910636955;727851584;2049516527;993495954;1710399271;111252], [3;5;17;257]);
(263, [2069071895;1858439062;689054586;1569446838;1925285843;1450582196;454782346;1938240853;16378], [468275493;1862195214;410799939;453556185;240583855;587649261;1634284823;357978920;768993367;1766267810;519593936;1172722493;600842987;371936564;2134726086;1546482950;208023639;1508426983;1606267152;99977937;683767960;1648774;936003182;6041773], [3;263]);
(265, [754085687;1476744910;1332156771;1445812283;185087326;931706603;243464026;2147060345;65535], [750621605;16846501;222943438;943826380;1520821469;595065741;1940941559;1017086697;1305629207;1489491443;711813627;2033013616;434012116;1708134442;837782465;1864727780;420248517;1150440300;2061949808;64055598;67749621;254773655;166565278;296139033], [3;3;5;13;23;67;89]);
(267, [530326420;1483999833;445830764;523470404;1064850047;31053691;1844425071;1148100461;42856], [970734915;1495920925;419112988;1484204028;1153975546;1528208006;429599878;1106582967;1298929149;1596832510;1729162776;1036580957;447271331;664278402;1641823864;385285007;2068323725;573266200;318774579;739988291;1063580048;906379031;670311580;224812286;1], [3]);
(269, [1462692203;1846998024;1661325370;820629793;1110513139;397413021;1074057057;1099455514;1048523], [618627683;1088715734;24237767;898100664;565959665;64513819;1939607095;63352188;1213777765;946034814;1917860960;806181468;32539213;124343310;1132257627;1808339419;586579501;1902193638;233308579;1464916937;682766192;2047071707;216866908;177141418;331], [3;5;269]);
(271, [2116842201;803824365;864600723;1666874666;1469713299;640126799;572020781;1624], [771855787;760894832;43744083;1881389518;1310879097;349502463;1800402304;1239351619;1556151702;875938331;890378673;348686114;505513228;18869043;1904084478;1475167150;1162708485;300087307;504291432;1006146431;1289360423;1354035873;607250655;6], [3;3;3;3;11;19;31;271;811]);
(277, [1174413487;766359632;347978438;684493276;1420025420;813867250;1466858039;233280701], [1795835217;867714441;815715996;108771374;1982282330;490759856;1023590514;1561282663;69480866;1533698448;1326585708;731694712;1817916065;1759268875;910786157;1790816217;1752984010;1002900217;617440562;1248696012;1745276037;81598220;440546301;1658751025], [3;3;5;13;47;139;277]);
(281, [271165351;2045060347;201405834;502278296;1169021887;82775404;633120423;2147163341;2147483647;1], [851957507;927468158;928304293;709849155;686719281;299782209;401498513;261688613;1139857971;904662433;226643785;501157719;1414169721;985609300;1335469611;1133954234;624832342;1483788777;225970339;1679080826;1937323248;1442994190;1574781535;496774221;107098134;2134], [3;5;5;11;29;41;71;113;281]);
(283, [1497339347;1335069546;1529028543;362595058;877126818;502474890;1381051304;461517151;1947603], [192075171;1026954941;1406000118;1138196560;513739453;1978283145;212137322;392403247;20014706;1525351872;521137271;424211878;344076781;2140740184;1837441603;2053548447;1639476375;1504501638;238198048;617243225;1622046722;38046288;472655566;767700592;1834909513;11], [3;3;283]);
(293, [1888957226;1127315282;860304730;2057380460;677408422;1097809498;1475939194;856475446;1311821], [1323460861;1317021429;1847307598;542315870;176760159;172318018;359078895;1640129377;746979102;1672162196;838714519;1424648693;1707249971;1555347232;1978284780;1632768552;1114872751;2135682646;383983713;1133087119;475492101;2015877981;1673473670;1594282810;1244532040;2202601], [3;5;293;439]);
(295, [9172551;789003069;828559039;83480589;388387154;348783330;510062063;1473823497;1122611616;39], [1668683667;1569737490;217579952;535798335;495039182;1434434914;717877637;974500001;55482624;1984779220;2817594;966215800;1091718004;1687509525;1908752073;1724876225;1098267495;247881152;631390111;1178690641;902572556;42537220;1868839265;1313570018;829511877;1962601809;812], [3;3;43]);
(299, [1098861914;475652527;474000518;1323047027;39970886;1314491609;1122091173;222206456;905655526;14264], [1734494627;1786057337;127341206;2040429186;1913294146;513502003;2112020794;956695767;1672360831;2034612577;1527513897;816705526;957725970;998252048;530591838;842123053;101882277;1677568529;1758846648;970408076;808481997;776162746;95054376;134445944;344389094;246264419;44027464], [3]);
(303, [1185362126;1886416579;1396014489;1331932918;1545058883;209337504;293539646;580271804;1473185837;8098928], [387092899;1903588319;2052302417;1296318360;815616058;877324528;484856986;1924577337;1534408833;1884193766;702439336;1893461454;1636812432;419514331;763236923;1072646811;130395481;1402050730;2002676658;161857526;851417135;1006385303;885442718;1702986500;596939329;939468261;1685206794;1746], [3]);
(307, [2138449428;818857401;1498136097;1040128416;1914264348;269873431;448810084;231504289;949149167;134217725], [967456709;1630661094;87087709;726732129;328303139;1394129916;553910032;61251444;222736758;1470000998;425884315;1832348108;894659321;1447193318;959951758;870456929;1110375832;1688219434;398647286;138918223;1352032226;1135833693;897890929;1948911843;254920966;1782049963;1068480970;4344040], [3;3;3;19;103;307]);
(311, [241345495;651482812;725452170;753091188;1989757799;1076623353;974689486;1147880305;354081722;89752], [1334652583;327633676;157551175;107806852;855046797;1305333843;722257320;1096304898;1652287932;771314557;282740253;2082742311;378255826;1713854608;1281498916;1426522472;356963753;156719365;202607534;1280133796;293974613;318112913;432447719;1861827310;584626803;1852106770;611524026;435914], [3;11;311]);
(313, [1537963045;2112359718;153723348;948599153;429462885;511629661;370187088;1374714608;3107133], [63224579;1600746676;264138484;316489802;2109692682;1237518473;2131340032;868883290;217674235;1145024827;73802561;83437224;1751298322;181171004;972370393;1563776211;2035322392;316951310;1355130907;1943725259;476011636;1805052231;939009721;66783415;610257795;1199732629;184863933], [3;3;5;13;13;53;79;157;313]);
(317, [1596878040;42181695;1598575240;1618175855;14421130;1929224525;1985485087;2068683902;1467913969;2138906728;63], [1814317971;1780233649;1611340074;1442777293;1181728939;2048889281;1235448933;1167843880;1595649279;1419990490;1868916279;237771811;1317275226;1448538559;1194768040;1256458957;1972884733;239283600;527434416;1676760258;1437490345;1675723274;1934114950;677823125;675840624;1492789221;1473749392;1783580705;571369], [3;5;317]);
(319, [619577383;1416478103;473968397;163224492;1782521354;85457419;2049665954;1611946175;1106581211;245719473], [1957624339;331038443;1525061028;624001678;1668907412;893343141;246747764;165482993;939435741;1972648538;1045462266;601344833;153778819;979033849;193952770;115485301;1818854356;224092833;1789332243;1806019532;1216808343;908262091;1283802530;1699503350;695922619;1317580820;1366933925;871439267;12514], [3;3;107]);
(321, [543904531;1241294106;1726174388;243124725;653004835;1825187399;552308602;1697359075;413176277;378], [1944417969;595457772;1979158004;418173748;1005953649;1779878811;1752874841;1294397452;836905958;1391321693;1471428406;624835744;455227070;1166817541;648279523;1216565186;1679382694;1498177669;1138967431;1487014397;1178824552;1682421948;2133290549;1006660804;842324908;260171659;910891864;506698255], [3;5;5;11;17;41;641]);
(323, [1149406171;1280144025;1644910851;1883177950;1499801681;53307833;1580955975;1441940791;1149490428;5942892], [1903031013;626645541;926774432;375728750;1011419031;1990066039;1927041099;687112669;1422577676;638351628;560958710;521229143;1211259482;1207762119;606358174;1923153664;489114917;321883230;860894252;637276325;948772567;111954798;62298294;1207810258;2121531291;382684446;1030885160;706033556;45419], [3;47;1289]);
(331, [678126533;1723528979;960410980;888477807;2129232210;1291450844;1959074353;55538472;1943288202;40646], [834253817;1819706234;190497273;753016701;845516959;31427604;287116880;61585031;1911457197;1816361417;2106134922;253332353;52169297;1691344428;60158151;1130683208;859940930;106087522;1947489775;1495083441;1152383275;432187412;111275445;959836280;1836233876;1122061531;1910983576;261265392;6995434], [3;3;11;11;23;31;67;331]);
(335, [1367254736;220982007;302016518;482796522;1631230648;833744112;1592841472;1682740389;560693011;1351943451;16184510], [1524571907;967532412;1127716606;1093994603;415359515;1160112964;526653602;1383825282;2095547703;789935466;853771332;450621376;458247516;1120269644;1204558311;813135521;195113970;329912868;1238957051;1502625441;492973693;1020026326;269716465;2016686551;877756206;1293315913;2012223401;1449645779;1309838325;1371480631;194], [3]);
(337, [1912277249;827702988;817464835;421655995;355865858;632252330;1671886595;1009938235;35103129], [892193543;2041432003;459890405;992414969;1872436260;200324338;1284816730;1547251136;1127750971;458429787;1830453233;1429390692;865598145;8567442;1978626518;633116570;307451528;666218951;923029965;520766648;1665076433;87184920;1099866280;598536668;191060267;144303578;140550223;943246248;5171], [3;3;5;13;17;29;43;113;337;673;3361]);
(339, [1622302950;1257149258;1601862879;656055521;890754734;1794881577;234537340;1868817318;1705481235;487740398;38919418], [525144035;828074225;128283268;365404646;1053402269;738367590;1452743009;2032491644;1399926836;2106935812;730212642;1624761462;588421168;1429067926;276594995;1276776117;1989797543;860125718;1638526040;882456699;1404120739;47842501;256817345;115521232;1709406562;211019634;1041786719;1966564222;1353346527;717186409;70237], [3]);
(341, [1158685705;1471711325;191477302;981662933;324521830;291033217;60971340;1301678406;762652414;1260086620;1073741819], [848071581;1415127377;515751064;833375882;1551823225;676282771;1666078680;54263419;1109107898;1401368911;368576227;1793030552;814150815;876980261;947595648;372442563;1015888518;1740597780;1529031368;930509181;1710516399;2102532501;277305865;896456078;1616351202;1003974835;519029733;430870939;796018871;580368193;23737645], [3;5;5;11;137;1021]);
(345, [749688261;395792870;800749637;272869867;241092340;1939277347;2019277290;706528406;881218764;458498459;933610], [364916451;865530649;1392075991;4076187;1268381970;1123812434;410316270;116204125;479484377;614536603;134826715;1361190602;364792768;540172159;1951231573;1908194077;392658778;306188988;1515892132;951675149;1095357507;260048423;109196589;964618370;861272888;611953883;1472014772;1024238500;500623786;1817640677;3097244], [3;5;173]);
(347, [1711855325;833181294;2135890544;1334660188;1667813960;1953095866;1475628389;288342589;616479557;1773154458;6860256], [1427451233;463120260;1388001646;1391292305;1789346600;1678702915;1828028574;281880055;1857434111;1223636830;1114092619;328971119;1575952293;981041130;883958040;1499638849;841462414;1849445052;1343183345;686802517;643355784;3430295;2068816841;765603933;2082729301;105521711;522247535;1271504571;565042377;676449015;278795916], [3;347]);
(349, [1327265109;654163595;87432696;905577080;910543338;759155752;1797255257;145993250;1016331352;1659120411;2147483628;127], [1000626399;1861341505;1189769275;747686270;1677859188;288212833;51575912;1019080803;205432162;2065077852;819037627;1933329747;376772314;1848347167;382831759;656257116;622791530;1803827152;2025097285;255751043;1399734897;214983971;1046078574;1155835112;1778301953;2080883964;233149018;940652213;1369223203;16834530;848726626;63722], [3;3;5;13;59;233;349]);
(353, [1263408460;2054184227;1357441816;1764798721;698374557;1123665217;1844561551;1210803886;971183252;1461807377;2258], [826666081;2127638273;1500479112;1573764159;1126680625;1166693539;1594066391;2049620622;988222062;541011339;60168601;471531434;726066608;823763535;1483951657;1113461055;1799594120;688432758;1046193799;874204068;1166458241;1723977992;1809725064;1472491;295959679;52187;1695914375;233365917;76954070;2002397131;168736540], [3;5;17;23;89;353]);
(359, [1465321532;2025461072;451373795;439787646;1420378305;1162997839;1196164790;775071528;808644535;238922014;760973298;131022], [931918453;821758776;1232666474;1587366284;1600410514;929891395;637158531;1670891965;1320932471;857110971;775941059;2099828223;113503479;31453516;1959352783;906693479;882598686;673376889;648523138;1712306729;784083188;1935148447;121086680;1536502315;420037034;814587037;31788486;1417494093;1970802191;1127468175;1855429014;1563663207;8378], [3;359]);
(365, [2120966578;837790639;2057225605;1202740719;1864257847;923128368;1133556508;627134836;187446911;482752187;4], [215102649;1344150917;515028939;804044810;813953008;137214596;745150328;1509548914;641864946;1443307259;1995173043;1300405953;1440225486;893015367;286810766;1860710647;542682570;435336911;1889837795;735616283;1754260574;1122123081;644210029;99356638;99300730;827716305;1435272803;906910062;1118681219;1128201630;1387462139;496], [3;5;29;53;113;157;911;4733]);
(367, [291558411;594260638;1080830812;1737787080;1168472543;92227265;1180846479;637149752;482954870;2095963834;142215006;33550524], [851713143;291293924;2033325721;1456480913;1889616458;1769704057;1207178281;1908516695;725873120;1964483482;1223608698;504258216;215041295;2111853804;834134334;1436396069;709346332;1937222105;56164612;1057529968;1735344922;1585098882;852279586;1859087248;210471847;1854900492;414167115;1468228408;1536605699;830111658;1387932586;2085428630;1069734459;22], [3;3;367]);
(373, [102206016;1818909856;1056798862;1950611077;471627932;827302058;1150286856;393964288;1480678089;1767714206;1280762496;4283], [2010422365;318411686;1514796940;808081514;616849100;328817567;304090916;1223415837;486239680;1915842594;1275011958;349531294;1605414226;1623508503;998074440;647832828;308083232;538826585;1684851318;889703035;1316445132;1492498763;602961343;1383338706;204448873;877442886;946992880;393191726;708866828;1547046666;1538899587;1126872541;602080735;5], [3;3;5;13;373]);
(377, [1395518373;521931057;659144497;876100016;203182597;1285760662;207173326;1267511890;240989055;505566333;2069783927;995080327], [375858639;207645771;1400948568;447702992;1716950616;1008155572;1726295128;726596921;757340857;1518591113;62935085;331015788;1540799511;1411981542;1315840101;516657370;1734970760;1014739609;254189190;231222145;274744302;2108541451;350200483;1843822185;1860396494;1048487715;895073593;2025266006;1142513615;1283244682;799282635;2027527040;630736796;184071170], [3;5]);
(379, [1423159388;1606131400;561965547;1283958314;2027815137;1807423954;1299543582;1540596098;1026326115;372165241;388931185;3], [123774021;1260590430;2034302728;1282875395;1385948326;1466217666;1204402683;1519765495;678156955;1498705676;596940847;169630234;1055826414;286927363;313208672;1554184598;281202764;966543643;1242830899;1888741087;1147590408;1300660182;1909581240;365344582;1973559951;1688327600;1151530897;1862863425;1300833267;1137496980;410285913;1254339371;447662387;7], [3;3;3;3;19;43;127;379]);
(383, [1378580830;436424321;1802631254;1186069988;1504169597;907703845;1050233235;28569634;1463199382;777567800;890985443;177393969], [1328390173;186545511;456819639;763790747;110780799;1773418326;576897194;2071554099;904808692;97655913;1129533461;644014947;760366502;1692785360;45833654;1275519809;1520602833;1021945746;1119039524;791200075;553787080;949110675;2070145189;1627150289;204988896;1883137045;569162783;2029290842;1816640031;1066356826;1529876432;1410408707;1046866815;192321512;28], [3;383]);
(389, [979764583;2137820570;424727631;1245324112;2053044617;1067154847;890108607;1590719289;1729467666;712330250;802683467;7791085], [1328706137;489238725;1777236555;814125435;964984513;1376997753;574416806;1427523902;165318926;1271261572;476781810;1968232303;1818296566;576939413;1544307818;739374223;1255237687;1455303418;165107855;739576941;1755650759;533470660;1546891639;816309981;1666454064;504145192;1542070376;1560202321;118443944;486276786;346490471;671821567;329773188;1802223561;2267], [3;5;389;971]);
(391, [1271503890;1390088739;1322887299;796548422;424148763;979526780;1009315158;138219798;2011089900;1253370562;1736790382;5673733], [559041177;391841763;94285240;55142630;1818439203;1579273058;473800810;2052819742;1002709650;1758437583;596979545;990089841;770842172;1498904773;2127275722;1074723741;1207869900;880255814;398063958;1151840366;1813439950;1983070636;222613257;716866114;1583671964;187094190;1436308242;1567551740;1349888285;359256795;326370217;1709406015;1533245353;199525575;20231], [3;3;11;31;79;131]);
(393, [2029931096;1418923358;253921376;616489048;965734145;906074726;484117277;231678060;2035245699;1988473996;282495651;2108614996;1048575], [1557139535;1275455393;411742731;675306081;2113276499;1055319236;1178562643;593202537;807691688;1260873727;1755034393;102296086;1169202419;1904162697;1977699976;1145885385;739791109;1113871;1627816066;1866173891;558680868;1150354428;1872865773;1593848238;258325254;532705372;1209932699;1115935749;708769209;1457810590;997482305;943409459;1200960630;1812489802;439430827;45802], [3;5;29;113;197]);
(395, [961962189;998267833;740210873;1054751149;793901890;364213619;664619799;679914170;1812754245;664889268;1318252149;763181675;3741790], [1575950803;981592641;1202044277;769448200;1361857344;1370568214;1029779199;951549141;696356501;1164421270;661953061;1807050409;1162355114;332680381;585181212;1076593955;408256427;2107034319;1122514200;509020888;1196751592;801035019;1502837164;409570951;434837853;463247651;582733473;797685587;894946261;1683553626;224654779;854649466;996076902;2111333518;1974663551;2002174], [3]);
(397, [1042848800;1937813969;1273042343;1744399385;119724822;2093525205;1500192930;1181772488;1948428087;520281959;534981329;2147483631;16777215], [2080469187;1291753483;1002844973;884444747;2077079960;1120207513;2120004926;187792714;1872649328;1432101234;1383211800;1055054390;511581597;630710247;845109181;236851330;125893918;658598847;34163604;1783497084;2032482897;1555116094;1000647514;324823236;696503008;1548372584;156520480;351310285;178051042;1981404445;184271420;2117980548;842903616;1592209563;440391485;109971095], [3;3;3;5;13;19;23;37;67;199;397]);
(401, [1198129194;1015878307;520842992;2011757736;423264072;216056273;1529822136;1809453248;521806900;1446003470;576730306;2147003620;268435455], [881696697;385856551;1558720426;1765078867;866291403;168426926;1356379937;1100424879;1146427190;426136818;1979175602;1629019312;831246242;1469011444;1725056970;1868274444;894679372;861643866;693707922;1608460225;1397231243;1034119183;1029270471;1263388733;1870463530;1650543594;1644973189;2065862712;321299646;1457496695;1193982846;851975993;113739336;1155136043;346097413;2047594531;122], [3;5;5;5;11;17;41;101;401]);
(403, [694260563;1750678638;1226463264;223090196;729878332;1500492653;2052823158;1394925598;558618594;1505038183;2026606906;553715519;1047327666], [1218137081;2102187784;1397287230;594577526;1742377243;1784887623;860218715;1091264622;393529079;959167039;1425254032;1707085309;1814345745;1243825233;1366996044;509956611;191729898;860516437;2064886109;1821834261;1353273520;1429972517;2016743351;1335887453;1976828640;830973360;1340131280;594340550;260628139;546521673;1898624199;1776685440;776417341;1862740885;379247881;1099613547;5876], [3;3]);
(407, [404583818;272485565;1181842116;251606704;374404487;441256624;1247548274;552310899;968710792;799706930;367353177;955887915;27296947], [1397437969;431567550;1221951521;2127333548;1219608996;1295643929;162556402;1895226359;2116121132;1622028470;38046725;1443235614;1502576923;1046611127;1199600980;1762457443;770593172;652334738;953466569;2142133368;2104317183;1567857765;721620205;571086149;712354950;1384087074;847931519;944599351;726534021;88600599;1100441489;562826397;1551679776;548176668;1888533824;1886409766;22983], [3;59]);
(409, [810788026;39868085;2008827637;978506091;1243604320;1392392763;1803405322;1742538663;1556930028;776267212;2012372709;2146608579;2147483647;31], [1179700951;803119694;832495533;1210197092;902346628;439891659;1590436602;976292962;1732286419;405031403;806955584;1992350089;1758035310;1325576936;1642126912;736419429;868510759;735017138;1068224250;656134541;2021949288;1103362061;399129416;136009319;918313054;1417820982;709164172;982889518;870730105;364501301;325772523;1104711011;1999001061;893156832;347601651;418377103;708802376], [3;3;5;13;103;137;409;2857]);
(411, [1527327105;659215298;729654416;513917869;288342045;728973051;2009295303;1378149730;1272893023;1188608048;1334828324;2088825764;42760198], [562101827;112491384;789781228;1262146399;1157983386;1358706940;1573088705;625350291;866308759;100328848;1449426955;86049342;2002668797;1677974193;1197321152;277972657;1441026556;998635936;1121381115;62558763;597108089;1224350919;1050295366;780401054;268712518;1827877618;539645920;1254700756;854259192;384193300;1060228897;1959990818;1774443799;594230391;1419777077;1749540715;5402827], [3;11;83]);
(415, [121728785;869325178;1411884201;1508377223;2103890182;1451727274;1609143144;864912194;947886428;1072159406;1145056406;1898478933;2147463453;2047], [1376972469;1558356476;1940491920;359881193;1523334911;59597312;1603541215;1178161769;1045760446;2142543250;1911608632;741915395;1073963325;1018514495;1169775657;2126708023;456477492;1476366719;910874004;350471226;1460240012;1014721555;1088163075;1664816516;1516964115;1178211127;178042662;12951037;370775375;1227724027;1934669300;1298235305;1646247223;192567166;797572574;479994120;952838563;38831], [3;3;3;19;47;139]);
(419, [1494432863;1360589615;1979257530;566380938;544454167;1138910239;1270111108;1159240415;1059485243;548437960;1343945749;637241010;1309233507;32767], [1733381663;1576072181;1647962473;1350120318;522958112;1360277785;438243393;343312467;1205701801;1172696709;432972794;2094418664;967633956;1222375358;810468096;247060285;879370241;828763118;701866949;1371348086;234455295;909261778;1787651790;2020858861;979267593;159690294;724827257;911640934;1461837695;1910355915;686363564;733250213;1001195102;69132039;614886986;1079641709;260985531;93233186], [3;23;419]);
(421, [738893846;1819618022;1601097881;2109078319;722468077;1890064809;1258742068;1402568871;17351245;2086165342;1604924155;14], [590267123;486674429;173002456;784646325;489996929;722714469;1648356616;1933379719;144488932;1425082979;892700233;466716507;532702466;901773988;272899633;178813005;128067906;1498395158;1368032936;92175707;1197663487;2048037051;735500383;831545950;1045884534;1497507223;1542879668;73796652;90051373;350882752;1174606196;2089899377;1725611700;221478830;200114809;514015], [3;3;5;5;11;13;29;31;43;61;71;113;211;281;421]);
(431, [1590803774;368322021;1634416427;913065028;847812990;1020931768;685538914;216915693;1697957124;2117241942;108140619;1091218923;1190161150;134215801], [657051183;2051603442;935628126;436794348;545797216;303046506;1626124325;11714840;1672193250;867461791;365361315;1007369670;92952005;334725024;2084104378;462163982;1454681007;199473051;1291836191;1792554337;469485650;2071346316;1260154538;1053404392;750277740;1663152080;26142410;1289868024;437893091;2010715372;1332464776;1204279684;1067037775;1887733072;2121528929;183066514;241308802;78638512;600919200], [3;11;431]);
(433, [1077402639;1274251868;1951016477;1256708420;1234187944;989270222;964701103;1909987108;1746754301;698128910;1493181199;1818953279;2147483255;536870911], [895419291;91040020;1010595290;608283593;64222854;417506765;112283952;5654110;247245045;2057438137;505701457;785768405;1052577797;982199665;2010355492;272612226;1294045820;1501669115;143603139;1926550399;688307805;461606143;381188048;346966021;1881265743;1416591728;2057293277;572523713;1645337220;855429509;409587482;755614784;1888196820;892186561;718537876;588034873;1200406658;1378433594;1528176012;13], [3;3;3;3;5;13;17;19;37;73;109;433]);
(435, [110987528;740163588;74021862;904056347;697955570;1350840220;1698189847;423362390;1233301209;1912056934;986575831;887310170;1840508554;230648491], [143862403;457268446;703007267;191894594;614868588;1759902428;390229141;1133059311;944282400;1904832188;1485996455;297999674;1497485544;1048513626;380654882;1445600844;426911868;825231879;1197914701;1664919699;793291703;140225192;1426872293;862194981;1330406063;2139361435;411408815;549012748;1042804493;740514405;775559320;807074347;46819232;260268747;2001105354;579029262;724587506;669144857;346750777;72], [3]);
(437, [481783922;626130489;1177559620;741017292;2128441226;1933452649;1901534924;1381296777;298377768;1514254143;177821073;662193591;1665069501;118082860], [1941701199;1786675638;1582905644;1458019252;599374850;1984350309;420535538;823033882;1449616916;1855442649;1322318443;830342298;703154020;1727619830;476508976;1190529322;1902503245;1887937784;1371629908;42845651;1902711709;190765924;29898693;1456052702;1198694283;1480345855;1295433938;436878689;2018290986;590414302;792819046;1162248157;1048580249;254705033;944872604;1895978782;1879973680;362343220;1206019187;452], [3;5]);
(439, [510300087;1318671490;2143281117;176932323;1109574875;2039079898;1376189722;671786846;1907397800;1303449848;1725057311;534180156;823797152;2145012974;15], [1556407295;1432331772;1645385006;55313622;374046258;1479498746;1632802354;1282557636;638452492;2089948662;1791595451;1641790316;1976534709;1392233732;1777420265;834856004;2033521736;845333078;212104783;558375715;1508733228;350012486;949358244;1608546548;1421717928;1249945715;1961201292;57449984;940427294;330862367;1509035233;769597945;2020727672;1091919668;2039328525;945346522;1189815030;26303026;1057701069;1613041], [3;3;439]);
(443, [2108598632;1030031278;2106964908;2077528208;2102659138;177455067;2117323986;1221653350;963475477;45095405;754791902;811566545;317486974;2147474988;255], [1145090943;210071636;394088085;1407415130;1315805608;1229629649;735648948;430652479;1412896798;1168310603;1681178326;1753827772;1022063718;1827939956;40508044;1835668857;149812306;1169079589;1650562373;969277427;1807881165;1002500554;321832500;1823859614;519471783;1359134855;334360244;992868948;24367124;918085594;1916819323;1515086549;1593774636;579543398;1589378251;300220455;1333009188;928682125;1055601546;1725707420;1], [3;443;1327]);
(445, [406037941;1438135420;214211474;592045659;1820635632;513978908;2146079117;1554944950;1070905408;948286997;1490055669;1637276573;1742266149;3759], [500507587;1021759692;2142674451;1435929695;748058432;1021046974;1628343505;1303434544;176336880;1642024511;1214815688;1769515909;1099101861;1068202311;1425000156;494955349;545259814;703024969;1136082683;837283703;978641808;469808451;1950118242;167259350;667142580;1008666680;159554198;422338628;1599358717;250412423;1823982196;674285809;763340000;1884708873;1409403814;1616518001;1137459477;787533845;1052136067;324], [3;3;5;13;149;223]);
(447, [1125910457;1255800315;2012724466;2062090166;1239422563;364738310;350056370;456996652;941258853;548852482;947018414;1102257972;651784106;61957060;443], [521738163;1358814542;867631724;1570750146;1751347613;1664416838;876770752;2100438780;143023784;1087962645;1865919365;1987368035;70257275;1833413242;829513067;1743027352;935075167;1348008285;915155186;1604061085;1457411533;962656473;141245654;31158604;1649864111;545385253;1649642295;893602031;1329916470;796709915;155088382;329389378;1262829085;1267228644;1717732477;968221585;1183472656;1602129690;881142625;827489990;468], [3]);
(449, [1851690313;382977162;1176340984;993447364;1455559864;1618860166;24456785;447229870;657186186;1385120352;663979963;579914755;1564934982;45753], [526815091;867801387;949505167;67167514;325022847;50037316;2002644082;1978264578;715448826;1964841509;617550223;1157258535;187004607;501819254;718513015;1910804796;1261349316;844779003;1949619885;141632074;1215817521;2133685703;606794025;679615818;1911129177;1703902846;1079162017;1535615291;1561437801;1829805987;271841142;1997239615;405360987;1667400051;27855183;760679245;634059952;1102805958;173586052;592562], [3;5;17;29;113;449]);
(451, [690239385;1552023588;651509278;1566946693;1984643938;2073477035;909202074;69164978;1686838256;524743261;1561625069;179837678;2119828826;2147483549;65535], [882804363;890465931;1318663296;894273278;1715539963;760296745;42390930;1293158461;399094219;1147930972;1618645962;1990960543;374361432;2050598520;907243178;264341932;749830916;1973167534;885672400;2083025241;235190716;147540932;1812843053;1192158047;1382839885;1087620495;113697971;142280148;683233967;1671280728;686920702;1814323753;612454995;1900158425;1366645296;1199471755;1315699480;1408335169;1428209112;481778239;10397367], [3;3;3;11;19;31;151;1801]);
(457, [113404204;1512039829;1635802508;357100438;1372761824;1042760285;635045042;2089810983;798354786;965399133;51744388;977368295;644287517;57420338], [356846453;985384814;605884244;161598072;251305602;1135544767;1531222053;1402145167;327904187;991153536;2062662254;1354811272;593529088;871809368;301363642;841061841;1040388523;1991392333;1873601275;1358711781;1528110882;895806096;816563054;2125502003;1558040574;5813767;1843459079;966534540;577792061;1872309143;1611741618;1397948016;1806987539;593968693;449095428;1575469606;942415587;614438475;870140986;168466162;7798], [3;3;5;13;229;457]);
(461, [452260699;1294048947;1184424478;700367916;392864453;2125541004;70342365;1051970193;1527267011;64290269;2003289533;719606053;45537210;1239317046;67108863], [660824043;585682843;207914849;1363623588;1603509262;1509852566;2141583061;1031116621;468906800;1873340071;1176398034;10530905;1468938370;1768710919;2064438199;335516114;676415759;222979232;437669750;1682602306;1084397648;844524893;1062368551;2135938061;918412691;477377287;1605630045;1134509533;92722853;1918232234;337685458;1007800905;1007281195;118161215;1692824526;1754543953;900563071;2062124021;1253594403;1219595638;1455882861;1367646], [3;5;5;11;47;461]);
(463, [863119664;794751039;92489436;1174491321;351139700;1996955447;1535207559;1090053402;1452477186;1383071762;698247290;1339063881;1055574934;982655575], [1646844577;1426246216;1451937007;696620486;175911708;128141293;506611151;366272317;765581611;1764378156;89437518;1563978209;968180752;363673375;463148043;1247279290;1934655162;103897538;1701146120;1407677646;1644373021;1043836278;2014748309;1520648430;1830007645;1042073839;2011524580;361508752;1698869993;417181038;278850952;1222420871;516924461;46357212;1285033121;1173870471;418549018;27090247;1331316812;1326722325;245319144], [3;3;23;43;67;463]);
(467, [550555181;519049957;1424525910;1591135247;943927555;258730667;313462349;1701069288;768084223;921130774;1315208973;626022324;1060126281;603787280;2147273319;1], [615240585;2108771657;363732845;138573835;1042587635;1028980181;236363924;956414781;646945720;167186708;233418863;449469957;1604599038;287489641;1502874664;705512571;1772174612;1253928615;549056493;744315806;633248897;1947041669;1704429683;143408092;839417805;1960725699;2058361577;1090850967;1385234506;1699827219;1708661190;1535226402;1856536;851546294;831127544;970511755;1931159848;907228362;646922011;306000007;1587010081;1980595535;74], [3;467]);
(473, [1835408205;655450677;846993346;491688968;641001949;1409510543;782603353;1742623366;871953380;423005525;968293148;1608661520;1619831274;382100903;177648464;125], [318027471;300438766;1257630781;2127250552;1168452447;1020424922;785104894;338914825;954487006;876813034;1350012266;261513650;2086455735;850534608;1944006323;366510290;1767608351;1584097391;2042433655;1685592092;1494763986;995678070;1932158657;1327443967;649023329;1165352933;595458071;1361754616;542313407;603597502;1665232689;1749311787;7640167;1561627113;1399852030;220375952;382742279;1467896484;375298897;876219212;310087196;31021994;8614060], [3;5]);
(479, [666425305;505252390;373887540;2101786314;456680733;229268603;917398466;121665197;1045122283;684759362;405455392;490076558;1093131808;832382765;697067602;8190], [41504845;1253559027;1241630695;1933421206;807039920;1203253797;1208386206;1041648258;1889001950;1394522772;2142492738;669860572;1115415137;1246904010;1240948395;648911088;1226102621;2043237015;32473;1191349752;1220569434;1222592628;220981866;1279732125;1301342613;1468129353;1594205652;248499700;1705040135;1656842807;599438788;435502350;1296096215;995378148;1048894081;419692405;530359175;539639238;1172000814;2003837550;106540632;2046634195;1772456877;482], [3;479]);
(481, [2014577558;387350472;1980396940;1209055830;777037621;67865201;2002761895;1964036789;1292263750;1123305990;222843445;587483036;1698190402;2147260536;2147483647;32767], [1120414805;538395652;1812699268;1184648836;217385535;1715743300;1579070103;2046271752;861738075;1493531811;853167127;800148328;2064738632;1585599170;1398982672;682731954;1378616792;1354879076;1089929623;1348075148;1356855617;1384486603;2130466675;2045338464;2140157066;28302406;762780282;419631511;817948545;2103581933;1395210538;1217379327;240502372;1786800916;1019172467;1852158707;706426928;217846476;831226017;102975865;2022134822;355755550;606459348;23663], [3;3;5;5;11;13;17;31;41;61;97;193;241]);
(485, [1083852782;18399733;1746275196;2033114982;848399436;1970221502;1726393103;1772854557;1089523925;1966199493;1444794202;1334916131;657764814;125723049;458603588;368], [1574151193;2054014440;108646889;1621980667;2016448789;311628731;1217541287;965750750;587763661;962510547;1118064576;950893782;1573191231;1661619938;651980576;398036869;968484081;1028521588;1031448212;566151126;2087310147;633036782;667787657;790408977;1890007423;2093466628;828507018;731437239;2084992060;699820036;412332116;975522523;431506026;1482230897;193971620;469468777;1693146170;2085897256;1413349720;2075351421;891673576;984640224;460858116;39902], [3;5;23]);
(487, [415380620;1640199057;565217517;242917955;780250907;636793914;1715498296;944082808;409183225;1378215405;2056831350;2087734244;233967453;98844580;712], [18854069;1601381684;799796250;826304459;247560142;1477260299;1552456100;105334835;334039666;981662187;1951983589;371368464;1083571984;1554688868;457042100;1925303927;509679485;1236952552;762163745;282652309;1195646368;2074832687;966381924;1247550204;662136051;7575308;889131218;42882996;631717002;85460659;721763766;648326509;592277679;644471940;875489542;996135422;2012133970;438421926;1189547980;1185826021;800316026;997932339;945238], [3;3;3;3;3;3;19;163;487;1459]);
(491, [453527049;686337025;1694906243;2118872281;399979593;228788226;1135861487;1679208612;251176393;87648488;849881823;2085247708;1172888698;1907772198;168579432;33554426], [28413533;981764099;782353069;2046086604;1881168900;824153749;404270418;2114172191;1227390987;259049748;505702866;43781891;453415375;1658525727;1666631702;333424404;1777554918;2138362046;1542751908;336989228;1551315296;1964003246;1495014913;2129945367;1706956944;1153795761;1131588545;315765510;1465277649;1559447117;1140128740;711477637;1805311825;1099643513;2033794966;495541293;2081115472;1746103286;1737285172;344983015;1445899357;1239905160;1516911338;1321297225;3112], [3;11;71;491]);
(493, [587830584;1542826685;1436079287;1283425519;2127496108;994829467;490208333;2127390268;529946785;352179927;1112778486;1195616146;523644496;52898695;253064826;134216966], [179355307;580645911;1371662455;1484143171;1188121742;1588022373;1130719461;1961568661;376733675;333876355;1731548491;1597339418;441760927;1000310193;421467270;731311350;567333912;1725099042;638340258;466043328;797962118;423814617;1671940146;833853104;105213321;420070919;1780745288;1612571814;56895385;400938696;128435465;663571053;1455666425;1685727628;1308459616;648436033;1957558655;896229823;1138449581;2073916815;1384664884;765008099;346834030;665124961;152517], [3;3;5;13;83]);
(499, [786202941;1173369287;859691370;1067949683;316593951;2018962923;941556252;751215070;1384997363;1948419521;740176102;1685314162;773673338;46702267;176460051;844], [586929597;897512796;1563082458;1302601860;292264063;1497771577;487061613;1833655308;955926235;1678882772;1271884039;812927441;409204579;407965425;1868710931;1511094397;1173052746;1133429302;635147895;622227347;1683557374;347087879;78270613;1066890424;960302566;1906797334;401888902;1736340980;1446417833;1198888889;1221290619;1258838648;722044034;1636614809;1427568715;351575966;1819950966;473082856;637446407;312599392;973257688;2052087468;522611097;456822637;1763], [3;3;167;499]);
(501, [658988406;1009308625;321996941;301302037;900287753;672221127;1108012280;1852759323;991496254;1701071838;2104979142;1640121006;1156005871;864004749;349701734;2147483639;15], [650063287;495320157;428891655;1749905881;1613958693;1634584090;942373171;1154025706;1826735784;1352709463;1871319259;601845452;1241011327;1418687638;1151938410;912078709;1118689283;847625162;438514835;441499600;134337680;42100013;1034669370;2086642116;1680091041;1162363900;698791133;1240512225;1587273509;1846452931;1940617194;1856633849;830637515;613895454;1662126203;550378004;1446314549;554480686;599747268;498266630;1930787755;1753912332;1368042059;352719611;916118307;409], [3;5;5;5;5;11;101;251]);
(503, [227928245;1508102054;205562912;1834021153;752772566;1961827141;1753542015;1078606967;2036354774;1350569000;1505202551;95534245;907051090;391236419;1550759757;15981634], [1291623573;129310414;687328482;814209665;700212223;1899073558;1077539487;779468879;2138353480;1598944380;1533830249;301626334;771575409;1180256459;1842719088;507336335;1504102524;995116601;875563802;1873053886;751443856;1511134348;2053650822;653618944;1984521898;1716645147;542528644;1262033278;1165930648;998986975;1673662675;1047947532;1870103379;1600769170;81887937;658121845;1645008201;1663745499;588469011;1105141552;1870868192;1889663801;1660420720;1008552281;714751652;2], [3;503]);
(509, [409382272;145914461;1643739186;976857282;732035714;500772745;224543166;2110904573;1768584508;303881735;524374870;1048703349;1771749792;344935782;378415902;1918133671;4095], [1091349971;1152506345;268278538;572057553;1031473345;1636883417;1736995673;2115526251;938460203;410065904;1192520610;922729782;1714367254;479621664;638731643;1657818;1460514733;858259321;1386786004;1908009667;19826237;1918795858;756209528;2108367420;590557370;74842338;973726436;1317251410;1147165508;274355128;1220662171;1352841942;513114608;1972299932;1352345734;2017342776;1811796674;1425639807;951511879;1700970831;698300736;440223247;1489614096;1729906610;1786312975;212717688;1], [3;5;509]);
(515, [1350374328;211349941;2056897404;1773750441;1993362777;1489452697;1431124954;289481344;71393390;1821768396;726146379;2102203805;259308951;1574083660;535713858;1111550841;257908], [1910361475;455036602;1209389974;1155366249;984685955;1429053594;1312517894;1636031147;1482704445;1085180478;611224878;1138418727;1534024862;1999674515;1710429136;1754087248;1917176802;2023740651;833854700;510749998;857988616;1595028410;1253858213;842865951;2084862865;285042203;366825879;1527017771;534227500;1926498553;1557232452;94294819;454630161;550623553;1802147628;86712629;1263217539;132144731;963011796;249815760;2141911993;24380906;1735390828;1758673577;148804164;1747310138;127216], [3]);
(517, [1192152704;1047928188;1190946523;1611359898;956956662;1200692620;1896281805;2016676493;2141466103;1662924199;2137045469;1655219641;569977610;703857417;1989627281;2140918759;1048575], [687032829;142870767;717838715;1551097305;1161577387;706249567;1306795278;1305693909;709115055;2032782186;445748391;1286617519;65346434;2131352422;1726387815;48597924;1838238599;2088578774;2025480361;53485247;1833164055;854309534;1892880649;1911927710;2122604029;2056571039;651304238;1676360307;1294751403;1589507300;2061613352;147942995;154005625;1539714109;1310669590;635829342;6080216;209138307;1473386291;408002396;476569879;1014603267;2115264704;2040623565;548631346;106260693;6335995], [3;3;5;13;173;1033]);
(519, [917708217;757536285;1888795368;1108305107;815448030;28200868;103957239;1934042482;929197866;34750031;891451397;1026231690;1569420274;1372061918;949608925;1932361296;2348], [931620749;1680542026;1323479757;1175809526;1802976028;666774421;87560954;1848235359;1420894224;2026491439;841566943;1152879290;2098326274;1810913381;96134861;180706799;1225994141;1884360699;1077323249;1055807576;492472869;2005774418;814391355;1989335683;1872746401;1885974675;759683069;252088158;914140768;539316533;216123115;39255156;464615945;1050640222;957742970;2120758459;1283949399;241812423;1083201614;505156218;1593962725;548180735;1077110620;1065526255;1503036678;721207834;173866], [3;223]);
(521, [1926202346;1178909663;1613564225;1887486035;254255418;870247045;372909679;669651140;1369815373;1307083582;1173678495;1594658200;743914330;1247074125;274592146;478], [2003565563;1502845807;2115363839;1989592706;142690989;377740020;1816096664;521201265;1038861660;562054494;1756027585;1455305894;2001426871;317905284;44083941;1585929046;1057220499;1034525799;1814295968;970909925;1688529672;617434554;1693823464;891100294;654317803;1200535828;1191138400;1905232263;544540387;867338326;456199395;2032685497;314079616;536555027;1057596283;944266118;1124425998;1298976325;935312053;925585986;1101343262;763382158;946662692;883317137;2092814737;433541], [3;5;5;11;41;53;131;157;521]);
(523, [586853887;1906297255;1778563791;543054954;1751647203;2058329645;1890521227;990101493;2003202589;1937606201;336321451;586669888;1157104768;433253428;995021390;240621703;1], [492393849;1026675295;509873255;382438540;1507233904;1072415446;211092389;692995674;348109401;2008915885;424647871;1737726240;228293133;241547777;1495711356;1184793296;1732400694;1075701563;2071848812;813632089;58616286;1983242411;1221462646;723526063;383292340;799728567;40843141;950977676;1968634703;1056402228;887220637;1908839341;350604792;250860198;986874515;1838233845;1747893223;208968488;1686376868;1237188694;223038809;475990696;1806584633;1658899711;77438485;581257582;12352], [3;3;3;19;59;523]);
(527, [702028605;229517140;141755381;1820171442;1843239360;707407802;1622735442;1819876254;1493207465;1195166182;1140897146;958767617;2000352908;1970695851;849084818;226431887;17849], [1002604913;1838618853;306678213;2013979241;1010697669;65150917;231676079;1381071786;468659740;1900358087;1070497884;1790996625;1897319061;1717405765;1794311337;1203298314;1753841920;170564360;1815700688;1607069049;654316995;1753773351;360132976;975604270;2123315994;1477306548;1996688406;1597477716;1444990726;1921340567;618008238;487111381;1435797269;177285727;338044725;1022846446;1928939249;1480249328;480915875;394891127;97182846;1415316641;967724626;2097810447;600743737;2009786149;1834414605;13], [3;1579]);
(533, [912437359;702321804;856908808;209481953;462101427;1376654692;2062745194;1777718270;518913581;395550299;1543875944;872296374;851540472;588309408;1748718860;1956754515;2147055039;31], [847480035;1072541115;297752091;120733788;1356745751;2133607860;612388107;2047192184;1688955962;389903357;1305983264;1657382983;808609261;1330536430;2074515992;1548624895;274883436;1468332996;1994239937;1137490510;375205331;534180363;664256777;1274573923;897560179;1379594634;489489981;1385164237;2047561354;1586100086;6282734;967302678;1965415760;1319363781;73791292;1432211171;916453526;1881857095;2068768371;1708822178;1083424587;988663618;712641747;241793796;699708404;2139578863;1527545993;1413980523;45], [3;5;29;113]);
(535, [785969942;2065903372;1129934763;325741006;1781800988;208295055;1924920362;2030436777;881725347;1579860342;1960160304;162929962;1440171367;1964662932;609948888;627998273;4966851], [94789355;1570258637;1035354552;1501057411;949958688;1172971214;829262921;1413528898;1527169997;292662370;161512279;133859707;365747438;527657002;1258299913;1849343246;624636593;262260723;1907033075;1570691701;1205553474;1000238459;1657162086;1231445878;1897939072;1399431034;833419552;1149673592;1012161793;1497376312;635935610;808297094;975132580;510123035;571645885;340098168;2019883686;97771404;1966119192;1379185581;239491023;1825995321;111727113;985110836;451405158;496356242;2021425331;86814247], [3;3;179]);
(537, [1983512149;82631901;2004692336;1321423363;729400140;1964105935;1292650402;1358763455;587946441;2021872288;1356384818;1867063287;1009670972;649097920;1205504024;918889377;2043484652;511], [1509287555;844934643;1171624205;920464173;1505581806;606268474;297724895;2140496988;550839530;206773948;214011636;163996116;890238033;2033128721;97985482;30466146;136658540;975985608;919798111;1693248820;1986993298;1044858810;1121503426;378204875;1626842541;439938804;1674581142;527500651;1654090341;383290604;826387388;2028300807;1446037710;2143480515;265783551;1770020978;504219886;1289752334;146994944;841639539;1021465447;2001441639;1922147391;955187143;1120381275;454144737;127343736;471079515;109616], [3;5;269]);
(541, [1042615952;531276272;243734488;163486004;1915316432;1885036170;648280127;1512088625;1176630454;819486606;972330466;259870686;754289919;1367436541;2459778], [62412555;964850984;2119928816;806419147;641278865;2108279850;1578387985;1039197218;902822596;223146055;2001776793;1479753263;409974058;499241229;140500090;1469045769;1718503785;264846619;457245378;2091431232;997513307;741504854;216162836;23331629;484571448;906403422;2028816545;733064343;1484287279;1379903507;1584948869;1156952158;1554713226;1130975738;574559702;16045899;1265909819;1515344854;998663429;1421494407;573168622;1186072861;957903503;1312495433;209020864;1724621204;36], [3;3;3;3;5;5;11;13;19;31;37;61;109;181;271;541;811]);
(545, [2036623940;1328294681;1007184441;667142535;646558428;1560802119;606933111;1808028897;937778717;253153853;799061928;792811140;1641654251;543066944;181814005;1472650855;2147467040;131071], [1012830375;548494545;185944275;1462914302;2045822950;1505151574;733794846;97901349;849891646;242543059;284899565;1220132968;84183978;316647737;1311628965;451495414;343137163;687074855;1981701602;1747718742;1766213841;864178182;739176875;1416340798;1499519636;967254860;314372606;1896890370;504803400;1400869129;1610318113;1009915172;1983735054;1410693045;371217209;1889305072;596649083;1811873055;1954700357;1022471052;623419471;785445026;360178265;1889163445;1194673100;2128220859;1708807658;1191995490;615274823;294], [3;5;17;17;137;5441]);
(547, [1048606750;1953176626;1981631405;1480267351;982308706;956743472;965712826;1098422390;723922954;616177805;1196935944;65421911;1403188348;885654672;139683440;564345940;15074], [1038641513;1682587335;68992669;441666682;801872716;78927889;861846182;1074809882;778254365;68524379;1522126806;308920447;1447011455;938960709;2042478535;590922666;1873413323;1330926028;683943857;413629727;981545573;1691038294;1588171793;1952621832;1759889303;1454219255;1470468097;1748758624;136028520;1269169076;645164781;1282229981;922874398;518322526;1953082114;808768698;862866497;162091571;1179534141;872571619;36722809;249814893;1988519047;1473957858;1346998422;271781167;123323523;1295257609;414], [3;3;43;79;547;911]);
(551, [543404011;1660225843;532153497;553264570;587153625;315866904;101518030;1610407174;467645171;1976077666;1768889870;1829295336;2051815360;811335822;997059505;2146561356;753457318;8388542], [1179060845;1126859774;895052306;1626715574;2076288966;582303063;1369515930;691905049;1536776354;1920600700;1201778390;813603436;274311951;2113923693;255714407;1837784282;1508563284;920904762;1568305406;1530461393;585063943;224512742;1078499466;536370833;988255941;1759681353;1946353495;1388012637;1595921520;913849394;1257789650;649369792;321127590;1886431558;596918143;1041112465;212015311;309926204;340523444;686898173;1476633564;332544299;1112473643;1797695451;316438319;758787428;1737121327;1471713704;1336622708;34622242], [3;11;11;23]);
(557, [623136453;535199810;1646114898;319232740;1087889067;2080500300;1795283682;1596127348;669689206;826284393;428424580;1411765180;1345514607;422139805;1347665376;1509733894;781570647;28342], [1322002691;2035713081;1910442801;755339234;1325206547;1519476333;2104120241;1733254868;752251441;358313361;1680096031;1579558915;1833528845;568317519;627358185;412325939;717954321;1319547400;697533173;668424734;1703459356;503196571;1501526755;1854593267;713392071;1072055682;1850239362;513271147;1032342504;108823210;1279366395;1897429659;1691313797;1045095090;1682155851;580541764;1573925952;460590353;959936326;328933240;1633108349;1828194420;1601067411;1072518706;640334539;1414989781;425276999;1195475108;1800482432;215036919], [3;5;557]);
(559, [1267853983;1407892613;1189553379;2061494865;1094393106;1310334576;2056525702;1958345880;2128165623;1436249278;1540925732;227791683;2079830431;446070905;1303868530;972109391;1875172306;2147094597], [935475537;1478662776;1476627920;1984558877;1658291516;858596795;868083599;433474289;22119086;1754544094;1330915383;111309633;2069506806;1668575214;1437596411;1908863759;1017653065;763485207;2077483157;1061763077;72700365;1997950419;94437598;1387879212;704239094;1874236299;650092572;2093086188;988469240;1189276404;1552847222;291277671;689031041;1071722164;1702398539;2023759618;176591004;892654394;424831533;529291915;979930377;2035123327;1084783827;644913111;350237723;42836655;314870474;1454205174;1198894344;823722255;92925], [3;3;3;19]);
(561, [310038177;1100161309;319643912;1240163733;994317371;1852162895;1073557520;32929002;704996288;620410235;1535448682;852361712;713755247;1479559174;370948761;239170633;84435], [712001651;1417859172;613195132;2088636985;408910542;160997018;554233937;563872132;332789864;1751302687;1242899306;301684543;1955491471;172732936;181498837;2096249178;846980764;352069214;1510951060;1124062605;153870100;1369530130;897770657;1626659491;1981275499;1849518442;1011954130;1095041004;1385243631;1266958146;2102397799;891868323;1147718160;1487210919;73642723;1737076050;1360693336;1835150353;1314774303;634948087;1834294471;179304410;56506543;102004392;1387231810;878843236;1290350707;356403726;1643658084;44], [3;5;5;11;17;29;41;71;113;281]);
(563, [2103335025;503554892;1544021816;1139827175;1361367570;110757848;1146375155;1609427241;540467960;431262943;1080021194;2106149015;934289060;169904204;965253621;899439288;537646867;5945469], [1335408873;808031764;1831377294;2046942725;1690229482;1354531977;1615099525;1546430474;1693349516;445194979;1902714826;634920575;1395549450;484057036;456185062;1198621996;743098572;680558082;1529877173;1280440522;1549851121;95661371;775078718;542659255;2059729565;411663090;194487623;88293774;1647351057;1816580839;1605443265;199234476;584928538;232921795;1446720551;1038928525;2003251217;486402161;1049374201;907522893;1837395557;1794629671;250323179;2127378861;1449109187;471724476;1445985855;588814312;1441249950;1518474565;38613], [3;563]);
(565, [1178395520;1527002040;542733249;258520175;155322265;1460582172;8441957;1163200648;1727108806;1964735618;713504404;1936128596;1394116783;314030364;63889262;1685008390;1619225801;2147483552;63], [1472822123;1415957234;685274631;243036652;1552771881;435254953;896244378;410374096;2142864104;1539506905;2071484541;337911287;1826118198;763002556;1837607471;1056401419;231208656;568300551;1055217905;1225918589;1450627601;826474625;1800222123;339241148;1989554755;1443417842;82769322;238554165;271193984;64033212;424956133;1125854455;1544497649;1286794390;1444086525;2068554172;1054339445;1342631648;1555342456;1315898734;1989494071;1660986392;319477951;366504988;1694935263;754418902;1507956437;2072488664;576249764;1147843311;197141170;5], [3;3;5;13;283;1129]);
(569, [1493959231;1647471301;878775036;368009472;1295509423;800899101;392106725;561714815;1054446412;1683719374;69481627;1795843094;1349453735;1588173667;578018;142715032;2021131388;2136819159;1023], [285872279;1246623345;1661456284;2071609138;2098480690;537983118;32616334;1822489133;478620974;1531104196;1550596578;1832335672;1779334087;113553497;192886850;1203377496;1911979650;1735617588;1027924639;467381992;1590006068;2141657968;1910488078;1414334622;1358198992;1248628570;46050423;498818581;105450535;993346156;723202583;952401881;1738178906;641985548;1665749621;778354147;1683387457;740979024;562347272;281308031;1909006701;297148954;315773254;461255358;1184455363;1054062236;1787253872;650616813;2090499543;1319397830;762244032;12225], [3;5;569]);
(571, [618563488;1098577303;1155129331;792793493;1469939072;474657967;667704499;109843507;435712911;1967402911;1130069580;1216736832;2056656941;1214882868;970642261;990077135;1344979252;2147476454;4095], [130680817;174347847;752760842;1607898618;1459024847;847513630;2043290871;593306187;237509959;664559186;499995011;1333796169;1625121037;781344224;783403452;476215343;420960368;1299530286;1797025049;1954863839;1861238199;2141470189;460335489;1812359140;102784947;964631493;2072730017;1548506529;2050675562;2027974529;596093533;402800838;1514378222;1551803989;756738460;1109503410;386005984;1849269946;1770685066;1542354677;524041133;2064902402;96142039;1059838908;1533200081;40463089;1159260530;24212208;1201747882;549408512;638013284;599045], [3;3;11;31;191;571]);
(573, [1308204334;1620713872;2145157964;1558242483;1790484798;1377646387;35665704;793651757;2075877694;424236524;290525516;151110817;1773114296;594620885;252158698;262948157;16733058;14110], [4377;1442932783;1386926928;306698917;901300818;14362570;1741835364;1166044785;702829672;1412135036;2022073284;453190022;331928283;888898363;445706530;650426885;2034485255;115252553;399822651;1545549656;1586698957;2142592988;388823982;1887746001;661826877;1120544540;176222993;1112472464;786365796;592261313;1384975989;1274561140;1739302046;848062870;222716126;430175821;6646009;682569920;1479938057;1502042761;1586143771;1877725103;649230099;1808294348;1183198499;1627192126;1907537882;885785040;579036756;833854334;25279184], [3;5;23;53;157]);
(577, [1502221909;1293530992;1967347040;103247576;1237963105;1627795779;1974445865;565024787;160120163;2131758133;1473480199;1137027388;1566010255;1233344186;981782892;1956365746;2124030948;2147483647;262143], [1948928125;597002693;1600375734;254789611;1380060938;691452416;282828374;1147359938;1674629384;1016248628;1964594624;573978300;1069227292;384635650;803624836;576168065;1016118157;1146296444;755370050;358433347;1812663266;680851897;1635263685;911919356;833876466;1718948639;346213644;669561264;1079025546;1697770361;759748295;1556599774;1709766888;1261760664;1515514681;281102706;569441345;877191945;1543732248;77117601;1971264450;788214316;1801365924;478894838;567463816;1486826123;756826191;1526262972;1863730149;662098420;1993838256;1757603479;32], [3;3;3;5;13;17;19;37;73;97;193;577]);
(583, [43820572;899247793;1971882439;488021569;207777876;1975398829;738522865;1174849075;642440129;1482954087;439068021;1052472463;1368550952;1650037987;1373111951;1626601871;789281758;1135861398;16776907], [1284757091;634004170;511154869;427792047;2037492337;157600041;1519678629;1522513858;775334690;614746054;668578517;1048193755;1664019392;19254676;2065682749;1325904467;961403386;1005523832;1428314689;575318639;376444967;695682808;504630262;1943253491;1289447268;1366866444;1479226150;77107872;1304452665;8942872;868895933;1490601150;1076818008;811190936;467622644;490175824;919368854;1842959442;1557908984;1794423438;198329182;758085617;875179963;641166214;594446062;1726478016;806351264;2064478195;569965275;427098003;1046432725;1259021253;3860986], [3;3;971]);
(587, [1741027403;549530806;1296306840;908136543;2010185485;1179358883;1626490624;559860327;1642029623;2138346767;1128882331;1843047516;1628431622;1516636011;1942421364;629361087;1365192138;1848167268;43414], [1045971089;1522547199;570333104;1521129914;1366945250;221403963;846160686;939321261;29023566;957605253;438773253;788237532;1683506343;1154014683;1179452479;1067653200;1874487943;1603445267;713789261;739756194;888325081;1866194187;952684217;876839596;188020011;929488492;2089593018;1764126172;1923513834;706050940;477871427;872165892;1006176014;1587357960;1554116935;381239187;1449587445;1905990204;317380470;2084851677;1854816034;1837409072;1502589187;1706736771;1319005148;758587808;389501129;109103002;582171476;38246323;1346448776;217415531;1499329], [3;587]);
(589, [1206538572;239406374;316798217;613649745;163391793;1908728373;846281856;1927815633;939779969;460861284;421746503;1323912244;79139855;1773190715;1357221599;561706982;192765175;2136575390;1073741823], [753798659;1024841395;753138025;759385172;736892477;423439522;1993526075;516105678;731682571;583634966;1416787317;2104117422;1390757018;234536672;1863808448;2141804937;95000241;107460013;507626300;556274175;2045953981;571776795;653711313;242989516;906503008;1606653223;596720426;1839583856;709344891;1896169839;1285102707;1152216307;347379266;1644799657;1032785252;1597805524;963770010;1343004766;759624384;661399019;539359199;1491909689;254175490;518843260;1436948702;198504798;1357288301;426800731;1579564760;1401184080;1584309626;1115436292;1130513131;211], [3;3;5;13;29;43;113;197]);
(591, [845819289;1868504327;1029523046;1519908602;1654655448;1397799350;637719243;347502105;1358590901;1508295160;2025284724;1044848623;462458919;1434184924;1003164901;1966150042;1274482408;1662111790;13684426], [1440877649;688339263;146114476;1867197767;1446403630;460095566;738917221;1665504010;585956946;1982493549;1702037134;1267236441;1237625875;36840635;2023159315;813793653;1523039103;1767080135;1533597120;807902216;1416736145;1230856324;1491167442;1801013903;1046863962;1831590186;1652905501;1485348934;1122537186;1855515011;1477057097;1371201701;2033785038;507069879;935845289;1409553541;1323009444;770233420;1835182916;1809510906;712420622;1431101446;758889742;1408795856;1861599830;629659023;2090465753;1641126843;481520652;1228753993;1257369322;891513250;51181276;33], [3;11]);
(593, [973272873;1840988658;51823202;1681808437;1224265989;1822896739;1243043659;18534769;1386277853;87737006;1479373710;1768443326;1395767865;750956384;2030983569;2134044862;2090311399;75123], [1294732021;695905053;958072838;1456437048;215484066;377627824;2051769186;353146198;1723400824;1124650500;784993045;540085580;1342921922;1611441827;1943091044;91126457;1277405909;2104052386;699958238;1307165314;1296696377;960885614;438480151;1877847686;552164106;466689286;2077673852;302642418;31952339;793408156;758097213;1460131478;374876004;429152315;1349445948;860894163;1727557399;2017087216;1883601675;1949009714;2126616927;1732492296;1625963799;1623781253;952911187;1166749802;1116215269;352348044;965984815;1092491209;1746521346;474230950;2], [3;5;17;149;223;593;1777]);
(599, [1241945411;1925390746;1904306660;772479263;368967073;1107373314;1902581348;615899176;1724336844;1052529559;1372275540;373592438;1324613513;1794267543;2015895276;1554265484;1677030443;29385394;2145396588;511], [130384059;587982052;198114068;1694304659;358656574;1926247389;1738867102;1585920364;1668083766;28682865;37491491;916591604;12314353;540503636;1520564876;947833291;938416608;2073322614;1065550939;468994457;817287436;1858834999;584326856;1001705999;420315116;1071463001;668585635;1266795545;1909252590;625576745;2040114448;952850959;464515476;128022213;1073082171;686269592;557055893;1743256022;305223963;1829096962;1224142706;583778494;1019161673;1761710273;1627911273;118241445;1573043326;1401077580;1191506064;1717691587;501014099;760056610;1025199979;1768810822;27], [3;47;599]);
(601, [358358480;833187000;110322064;209689121;1668840650;141038835;1727655460;1100204869;506673945;2066834448;414399186;726732934;87582373;1365089155;183845661;1901978912;771], [1224460915;60348690;955372467;32361063;1757633608;822260014;1010483551;2088357895;1485630798;567101480;248517665;1343457603;1296126179;325686303;949760878;556391636;1123709120;1292864839;1642622248;1858416102;282464572;1616011874;1870619827;1841528995;1431383070;1445665288;38105092;1783344317;925728194;24583610;1867597597;802883914;953573568;2040103020;948592503;2052311016;1240855028;499182929;2143362841;852853948;884806194;448984340;1798925263;1723073858;1922627362;1119864328;256900683;1820026128;896760732;331893753;1820118579;513], [3;3;5;5;5;11;13;31;41;61;101;151;401;601;1201;100801]);
(607, [217045367;1100920432;168041811;212691233;1262135806;1509804620;2079910608;1748566870;1360604844;1330228199;1861919511;1528541440;127460762;1683021821;63095004;127796816;717960932;1298869196;1282437427;131065], [631158183;1156764375;1724566249;7091247;644449158;419229664;112285520;449729364;1208087673;214162913;630107529;1619365429;796881511;1837979971;1274325077;30745702;1774703444;2015112877;414932189;665455489;997752138;2110978414;1250321813;1338037412;1634989822;1469199804;1092445650;2076110141;750161696;622981934;74193544;347078037;399099346;4302107;1916155352;1058218972;1044333121;599914355;399467761;317152448;801778275;271361183;1876539212;279372037;941449454;1042080214;851552878;2085045394;1248491524;620764372;1489451589;1680680128;560574432;1777845586;160390370], [3;3;607]);
(611, [1664248728;707159903;865133238;1240941385;1972234431;199115393;1360489894;765835368;1891768083;1373114229;868791973;1909701421;1578764016;964974843;1378719356;1198412209;738100444;1260161135;50705458;11222], [796572577;109914075;176641439;1997110785;45759316;1052180935;1143067047;1532354587;791494231;1906028628;393634890;1226993571;16417923;1131667375;1207591666;2050146987;370458762;1843333041;621145071;60060671;1398242590;1975240043;1200627237;1114876754;1121164071;1528057240;1023096321;225617371;778896148;1840802728;295077852;1849940539;656813376;1780425613;143800256;1073325566;1466654124;1658964449;358332742;29380839;543253145;438353783;1341795032;534360621;154418292;886589109;897254186;1560376236;112162066;1014511996;134651569;1492833374;2135938460;2095863740;2060786194], [3;11]);
(613, [496822205;1110368848;1586228245;1438664088;1312354881;730227506;510153155;2146371851;780259067;54103589;743829044;2043527465;460942754;944924625;1864893543;1754992970;617782163;2146245739;2147483647;8388607], [1701983245;1246532216;324277338;844047672;1199594916;1630750959;1776303303;1500776153;775314981;1059448625;2146083917;784812210;1023972105;1192104268;872906975;1883858434;1411857659;271815672;62620966;64337502;1374903688;397495229;1739902650;1667665109;2038086550;1753425425;515308622;1320856040;1308488644;1720374830;1546674539;251229797;555311923;1831768200;842746120;787372999;1533479170;70012727;398977325;1010813922;803970445;1332607466;1363162248;2073925087;1823050122;1052051175;1071227550;224978813;707105052;29492003;171759884;691443177;453049329;1501374534;749748682;8787], [3;3;3;5;13;19;37;103;137;307;613;2857]);
(617, [356797140;1805459971;1197651423;477188718;552169118;428759200;780868392;195528756;785536270;1269543151;217408956;1345224497;735483457;1568351588;186167565;1562657517;75640881;589610750;1994942], [895870405;394366889;235667610;578889447;1883840480;904399444;250353079;337018544;1349043961;1313749246;1604411201;1685193301;1546431425;1097690998;2002177038;1242715135;1297678427;1096508912;415454269;1741079431;378008263;1267746715;1306082148;572080802;1115859634;362946467;1468319848;1063144902;452791625;1399164969;558155525;1350976053;385064983;1072214296;1048437007;1123365074;1724435742;525988313;1981692847;400788948;1213462249;658502135;1505452945;358106362;1537561173;2010462607;1159699299;218499295;143973461;1693746025;128201465;102875270;1915329136;2113004748;313595], [3;5;23;29;89;113;617]);
(619, [1766714557;1058207192;1325541684;1089042352;494918655;1928470870;1741440528;909144722;23816780;1290062100;1006646221;989430588;1841621067;202980474;1857980751;916368311;1101856503;1635283014;590623242;536839381], [1060537747;1195917536;832101736;370658349;1954662913;295338950;953208516;18354507;919084651;130170240;1906959424;1484799390;657354014;914454880;197700600;497588273;1539407070;2057820671;1386211639;1884035451;1859349666;210339711;844392605;556410816;1882897174;1929570064;1430204228;2028682726;1394562037;1557612955;352688804;2114466756;437489322;1042021897;567292036;1687353308;1329250299;1933538832;239528001;1154341058;1364830371;1255141018;1407737076;439119262;940400615;909730445;1116026517;661013412;126703071;10436350;520582584;1640088430;1048201971;1455576322;1469820957;1033762120], [3;3;619]);
(629, [1816658540;1102962266;700992813;762369411;1922799212;2017714344;1914355851;376155006;1724875330;577261368;1564871108;1264351397;960583833;993214188;405101850;858785539;1089354445;1101755122;545546292;1578522560;6], [308751759;1157150630;2014803161;761483134;897033221;1075824340;1978213115;896060778;1687089253;320938454;929141151;998369203;1087304007;97208894;1040348753;660798644;1401621997;49330027;2047359885;1033869245;1068229471;1046355314;574836194;1741510390;1986374779;913942678;1227558276;1106305068;639579697;1272225473;1573632649;248463052;1341670338;1669731954;475341436;2024520019;97445312;1859657320;1477872655;1050822373;1960553880;541441887;2078813039;1564758895;1887489353;569837113;410313791;1872493336;323983124;634105344;1713144888;768624245;928817337;598737072;355037048;1862081558;3577650], [3;5]);
(631, [68689134;1364870349;1838918006;751049025;1408748354;920186107;412038997;1474774846;841585902;1156644865;862978824;1636879023;1688728289;1081196876;1034025807;275604126;1068846976;584026659;142828], [2047347995;783490352;397699395;1562225493;457719608;1514917362;923824102;646029050;245544709;1544139498;1506858747;1879692651;1064184807;237794084;1805267190;1706865689;964729819;121310868;950503769;682623230;1534476814;2046540728;1167142288;1490772827;1834134043;2107320603;705446914;1010443478;632726189;601042309;1681643183;1751191322;658083711;1694515927;1434869002;1676807935;1680311137;1284477222;2030670322;231443619;1347082747;922700420;284495863;1645851795;1816074290;863106427;1964176512;2092939581;810969507;1055398051;1612192122;1557031509;979722180;1900590092;1696251953;432], [3;3;3;11;19;31;43;71;127;211;631]);
(635, [1301585206;1277229648;1863182710;1177897299;692321383;819819898;1902498111;426463915;577727481;642814307;2016689588;902010579;2096047083;1726829919;1443556118;1143164804;1850641105;384979740;1046057924;1136165389;15112], [401990243;249529933;1797820516;1320148564;259311137;22841320;1617097603;82898556;1705662145;1039363159;505614087;185891320;1475136953;677087151;636772492;90366048;1208891039;809211703;124784025;1177775333;1687372303;1075990756;1096414984;1736159098;207500802;686946839;1241322324;1095855073;838131695;777493804;323386530;1172948703;706592683;242143006;1110530019;882428660;67945880;1210843156;1843224869;1708817881;160773420;1366875742;271871089;30774096;1046862486;1174822824;40001535;750893226;291706195;622940704;605306502;212413360;1845226078;663526407;375639625;233539259;1776757868;6871], [3]);
(641, [1355155386;453508874;670539965;209390144;227203703;289326767;628049332;797520328;451198704;269902916;122257572;709189370;54737220;961218062;2093598934;241512089;1486371393;2026543369;635425694;2144927774;1048575], [1948706993;2121861440;3526281;2033242232;9976615;591524993;1401998397;1808898501;1599182811;263398953;1951055818;600596590;623285802;2093382112;1116860994;123595343;758166791;1888221312;656355180;18658849;1802016199;1506965136;1269554715;528518657;1851984320;930233471;1255632829;1172021446;844058248;1291597152;1477966443;881431668;601581019;1803713003;1843691132;670816253;1643893908;116112841;684266699;184934927;1133380854;830635322;1977349467;317962576;720126617;364453247;199947321;1976942645;1374616158;1857892645;1631410294;2080762445;178286368;1786467896;1173675346;814339343;1072915382;876482542], [3;5;5;11;17;41;641]);
(643, [2043826294;432632673;1540142311;1366121861;1816926975;1015100076;148514029;1102815933;995496371;1025028987;1197685047;563227852;1877449841;867291924;459224908;1429295676;1094395513;445837506;2118672442;1097589364;4194161], [122263675;810743588;313033959;1124905692;1666593639;616825994;1564805754;496892122;1615109387;452277388;1279195724;1712970582;1523127881;1639127380;498286590;314254797;1000191168;51228849;1246019891;1788959209;1258373046;1993975738;875295240;1675878234;801475000;365075061;374514149;358605028;1000272442;767308614;1853254930;2073538151;324135879;76325320;526595745;1855869146;1099058735;1815049025;1411180562;1618529147;61608315;637381888;425067147;1784689943;704181111;649681523;2050074520;2059684848;1815918636;1903849166;1362341220;1886834570;1504691921;765499745;611210734;237802360;1822320850;2143996301;19], [3;3;643]);
(647, [930567486;1280638126;5635737;1020461624;470745762;625149487;201649428;556050667;1543742709;1585100035;541442935;1665740334;1131511375;370168528;1833760513;1024482932;1830195699;1869388371;53998729;1101682053;67092645], [848011957;455605478;910085599;1092525430;284491552;558280854;76246485;665263416;1740275787;3102537;1088906964;1013232631;1584608237;1576900618;704733794;929227486;943375861;1853312917;1314009714;219552689;1297617831;1367506182;74694416;1213366414;1825819985;1505267214;238131362;181143822;204906808;559601485;1253873866;26799203;1856454578;609761600;1008846992;1229292329;1441697045;1639882830;1506891026;1493626668;1276522006;364489055;470079585;451769635;948455396;1127809070;1825792728;863240589;441919378;846599885;1332871785;1765638647;726812030;1048253330;1487931268;1729819072;1680048322;273954801;48006], [3;647]);
(649, [1002783547;799335876;972805322;247279625;226305979;1339782606;1650751982;281251802;276639585;490388997;1455324599;35946183;1985861042;374197839;2082230347;546861553;315244818;1355187658;388198206;2147483634;268435455], [1805474371;511903471;347721046;1514798978;127534059;2125664935;464716735;649043268;487901918;1289694520;1429580576;590641371;1181431728;1144426572;1943403094;1733738460;588076172;1546601643;2140382185;2014376354;1824834244;364594650;869483483;130452780;641396976;1278943489;813035331;1029731851;582883937;1207495833;305453249;704006561;679182944;1741373409;1857929136;596763861;1248727973;793929267;631775338;287712327;1596341906;1255818926;1590169430;1273509964;717465975;1494323563;1937326087;87870616;1543165162;1191898788;833617053;323676600;532839020;1001456889;11095106;1262150164;1619663891;1887316909;2352868], [3;3;3;3;3;5;13;19;37;73;109;163;1297]);
(653, [1417486803;830537422;328692273;34273647;917136693;328904287;2089020162;896408992;923577173;745862632;681943229;166077186;2032000874;1659843249;1761662456;316362670;2053190193;197810523;786797061;199234991;2147483634;1], [840578943;979658509;1362098719;1573600095;1655135308;1404603233;1495415273;1021580714;1369345650;1528259463;1300440661;1281031361;298307181;1898635065;236547368;1850403325;1760721838;137877514;749016465;2028943290;2134220671;266920918;661785979;350680267;392083203;840770683;390137563;1052289294;1115230205;116584098;1564285754;256683822;898841;851129572;1315055340;984001867;329916392;1391967899;255882772;1451491638;1360827471;671605699;925388409;1650571289;935373986;2116268356;1791979985;2055898988;1547954119;1137608334;892092710;70938267;904295849;344696183;1583764756;798477809;380051825;1776982320;1354270863;2], [3;5;653;9781]);
(659, [893234292;850487617;1314986317;1503689629;800883190;248552178;899703557;80161468;2098927733;740746094;1704451030;1902909048;930661320;431642588;958807183;1932554901;808034650;1849670579;1397735906;1359941399;16862538], [1249870841;177112232;1198782232;500777977;1137655372;1320758493;1559945408;1785800451;383668588;2034124171;832753112;142717305;629737547;1636915236;381489511;1495071695;85776252;2055758527;1385272948;69122228;1325096731;866290039;648150470;494095441;603258805;1272039079;1653363074;26106001;711081138;1520063057;359382521;1092485958;773514820;1786213555;1650221488;907584918;1038021341;1196839275;955743349;255759758;1215274422;1423043522;1454752988;1359454824;1885832804;1373423328;1168837398;87203146;1191760832;241101814;333048588;1871760304;1356753001;789441839;1846616226;684124823;1545468351;1936036888;2117222277;18], [3;659]);
(661, [1707101459;1338373115;437309759;105922679;1231405691;931790637;2082777325;153881210;1170777566;1362088391;1067102022;1845822480;85538316;1907845457;76759592;242623517;1386166395;145255756;521334530;4132], [2040660845;1744753367;1408207272;1822258250;1662701037;943293302;1693872011;1003190572;548052313;149480232;1826211909;964941693;584509187;316563926;946040925;5653913;1178428947;706145084;769079513;1490456003;423964562;1468951207;544628176;1490776183;609877120;1927054349;1499988886;1212198659;905846369;309362368;1638344846;1348014151;2006946274;1542078424;811545767;2049634401;1346433976;66816202;1965713295;1768695694;1482296512;186682980;229283965;1710798686;479340911;2004296239;917009917;2125362316;1446821136;549423126;684634643;593726701;750793596;1498918406;999526915;951020363;356206990;122394022], [3;3;5;5;11;11;13;23;31;61;67;331;661]);
(667, [1379558984;1509906025;991706191;40389054;1658832787;2046099975;927819327;811939653;1449214310;641127427;1184978071;1587517598;563182643;1169424116;507632536;711228949;1911541098;1758506217;1735838475;1139267781;2147339206;32767], [1300484049;165637037;1018173537;1443648647;1159706961;1235816167;756198824;2035144539;383154565;137858755;469975150;1781750749;1288907411;553479835;1381671190;1047690080;1034645099;2103132767;169194707;226588436;657908165;1075288450;1997378003;993561225;918489253;936245318;360052639;2097576176;408712930;665002245;1868580439;1518372593;1269211284;388592513;1522965365;1434640260;272577086;1314581373;1937164168;1678087260;120411576;1936718300;1209574916;59338227;1601580375;882693214;116723317;1877926948;454933468;1425706435;1251135291;1833540569;1208588244;2138352166;185077423;346090091;1512533496;1769785942;1654623044;1743563106;830], [3;3;3;19;223;1999]);
(673, [274603520;64542226;952360581;1978710440;2075620970;2132382871;1953958984;2122280573;847588086;831941409;1159605442;1033859368;2110746049;1316149437;828158073;470237995;1164069001;350560334;595240847], [976853671;580315667;355713900;1667548731;1469154020;739169490;341514268;1337007269;2032434662;337718869;1251744114;1378974684;1201738700;1707471540;871303031;1484777114;1750782613;839634198;1576399876;1684464533;969225647;1120359246;1031906835;1389360633;1197228755;1241531447;2028401705;1608018228;2045584460;1351953152;1752062138;56090037;1477906781;382214838;2085286661;1037694583;439101841;466505035;1637212158;35988205;537799444;1749825710;17285759;1662800081;1285982305;970565091;1799870000;2117514602;2006278506;763086794;714006925;881530515;899817462;989726648;600302631;1667268984;1806017010;1973218573;12], [3;3;5;13;17;29;43;97;113;193;337;449;673;3361]);
(677, [974957574;576789000;1275187469;31284549;1176280759;811243846;1049978028;1742751898;2013175987;1874826172;1552943619;729378149;366673786;99656890;777678679;2075778294;919192952;1616692528;743553647;2146224016;135649200], [1774443243;1244410424;1424276088;701940428;562466025;553701836;2060624162;27043933;794524015;1573316569;900556683;1349643140;1124507464;1028946478;2132213768;33945064;2026579889;1876647157;819934655;428023816;1616293576;174289734;2146815337;1202293131;403568069;1726448276;727123824;1226120456;211110384;1643631923;1948652556;332337641;1377032172;2050620869;448690937;1496139883;1687629643;2065141118;1284058806;1543895870;1002596860;312320503;1811879403;1698750676;901074447;49478613;660276255;1679837067;863861744;241102504;870679479;197960939;1804730317;1690511472;905168694;128664538;1037834045;474817188;1739832017;1706814823;441], [3;5;53;157;677]);
(681, [66935986;396671637;571967065;1734657007;1011247534;537185211;1047905968;994914503;1735588692;53754190;139888522;796478348;215724196;1483556875;161597907;429210104;2048249348;500683002;1654764056;1937092108;117034907], [309982085;1339385395;293024445;1439713957;1909767645;1664734874;1409831144;1391927531;1912288589;863453510;770205408;488800464;1937051402;1248743753;370899642;1037416375;1923940600;116238483;1991021350;1263262850;1105168398;1784269956;1400104144;2058683810;698816282;1613802786;1615804562;1037387876;1444641691;1892909076;666410915;518481382;1328053881;94511721;1993042700;1887040299;178238192;456756469;853311968;602331767;55838541;72585714;229309334;1651186143;1816264077;1910096523;1097689233;1509924958;871078215;2145895749;258491518;669894877;748931398;1623546171;1820708466;409891513;1740676909;1140162196;668572044;711728747;57199], [3;5;5;11;41;137;1021]);
(683, [761795025;709105453;93882091;376679700;1538548364;1772477914;199316290;662597519;38853877;1531503092;1002523275;1694193525;892367840;869617191;1980028104;1125547630;596901942;113768659;286461904;1451078814;1411319671;2147462923], [1650103079;1971178905;1844084651;646542995;1427629178;1721566539;1573989307;315409465;953433715;373649074;2009767875;988523786;981478953;1083720697;494616017;2024871377;93303220;737572362;507852174;1029926430;2078343592;15900277;96702785;509823663;1763719575;996456887;855665933;1588664311;2011938177;426775036;1125286289;453302749;818592859;1751762456;589516967;599131277;1241384199;115427169;818254208;858996729;1948824744;1177139034;1941177783;1185131911;2114641046;2014057016;557362315;2098037324;352175675;2077794320;968194002;521300331;747655366;2134112722;856844650;1235410603;1044369500;556263767;1503405617;1864586424;1180322725;12856930], [3;23;683]);
(685, [885728625;1950932166;622677671;277001453;515829100;582075979;2069629985;409418887;63160914;1484737449;331883495;2007858564;1336102999;1518330423;1624802691;2043577272;241038866;1645875411;767883835;240187676;2147147943;2147483647;3], [2048491667;618534267;610955595;1967473652;826440594;932324710;1222070855;827937309;1067384156;78892350;1601555977;2083159998;264881408;1413106068;1197111941;1351910713;1936102517;1862010626;606313198;1629046493;2084790379;724916184;2104303703;1005546623;2092473034;151240650;1304249450;290185485;523217890;1677201991;1283461213;1429794863;623653170;719004441;685626205;1452680637;2016273338;1239229497;834018439;470254562;544263976;179695114;1615450413;1693325533;1776660286;740693011;2117530290;781139307;1468521444;2057661741;1944518198;126569736;788675941;330256116;1660386326;1046192682;3504900;202167876;243963094;1691331475;1547003060;629995676], [3;3;3;5;13;19;19;37;229;457]);
(691, [121906954;1047051431;2061544360;542366241;684308274;644293828;652650808;255432869;1292716818;805545235;1501337208;566853727;970461591;1392367657;1558108188;1327242642;1392897285;1322541359;379481989;236861509;407645700;13], [899530531;154786681;201544318;169436345;1985282608;418270165;1934593466;1570451105;129567062;1386659987;322747436;1523117513;505065117;699626153;2061737332;964239469;490416475;476566388;473602955;524150453;831442147;1104104527;576777926;1095737070;1541607388;92811385;509557296;1625285006;1891352375;563821493;1252333235;1812619605;795953935;427915413;1494590929;1494521829;693503455;1730035940;301845792;149886044;188519361;1641445530;627846663;334612941;528030888;2072298436;698185438;620338847;2137754490;91966723;97918701;1308147634;1466054769;1465304617;980467823;1800036689;1103584942;1678767955;1369921558;624394536;556114995;1778], [3;3;11;31;47;139;691]);
(695, [2016217919;297815442;277043220;238168247;490578422;1893224608;798009901;1733714822;1333621626;264848651;1759695561;1829113948;863361368;1371324334;313337289;813045516;255729148;1389000652;992190815;1192564787;179915368;1632068809;3989], [873460755;10463227;343912774;960495420;1723416831;592568875;1485245407;1104731725;888197135;687490687;1370048975;1994322918;1211593110;1695351325;1453618695;1582632525;644745191;915200600;1529624181;1719456456;197193923;376045680;692301080;991452568;1973045176;1567917671;330589731;841461465;1985843883;589229606;54280015;1850255154;1253332131;239055609;1743255147;328835240;479849117;1433367552;1056623456;26209428;1579062343;1408185283;1139950156;56635303;1894987779;605973347;754909531;1123690644;1179105287;560483756;568827274;1553305484;1256116037;914678867;1055742165;1996070848;293863175;2121377531;2087406193;1194087391;1444171463;1550098336;80718842], [3]);
(697, [904504154;1305563234;1264676014;2100419139;1552470246;1516512929;1130712795;200450071;382135083;1348214031;538283087;1715675989;919042618;1603850634;1399586685;618541588;321144594;1208810074;108968971;476788525;1079847058;2147483366;16383], [389888127;1388292647;429275653;1395794881;101007954;855806995;1692816564;346539067;928943088;1257754569;73658021;114395543;1820348248;1913024250;31991733;1572621209;1998883076;339456610;423270907;677018257;577056584;1027171386;1212539197;2008809756;187245291;1305930541;418574831;1134459716;16695478;1041466203;1810789177;828966226;1243659690;1545853224;2109748484;2084433996;1122649309;1730627236;133657561;197203129;2103696583;1621264809;618129405;505141590;2003298808;1416255740;373924693;400290905;2094191581;1025697398;1115552004;1114723004;2079362953;936255564;1799397391;1704373791;1755314477;529363311;1988579836;817227926;1846053492;2145312642;1913060004;1], [3;3;5;13;59;233;349]);
(699, [184290113;419722046;1015121889;2070165880;897603173;1325686565;418582938;1469240524;598627789;39484028;1803512798;312454;857532914;223056241;1485529201;2047561583;179611978;1056419599;1639868314;1862545299;857997336;1958509848;63238], [611454099;1801898803;1881497291;1909319323;172217518;2027981216;1909927984;1886177612;749895688;669244258;1123478595;1181574551;442084888;1948584067;1874796039;1464962241;369046872;1991377508;53768842;143942336;1867869623;1123668231;352529008;1701171706;1741802466;2011982935;608958226;63019912;1203736845;355854513;784654416;1205810391;1603253599;769855954;1528353217;530886784;1830827643;494345387;1173669255;1310644545;1514969551;1694918338;1087574310;1138396346;1577115714;855151065;570599609;1439406905;545936345;1442295516;912969213;1702197801;231944049;412970939;2088328301;2047654834;1505171968;165764204;1562900736;390987416;271018621;1477737280;866658193;89], [3]);
(701, [79562751;160112174;1017910567;1276058720;151008154;100173457;675656339;1617250660;1880118509;1220758713;1116655553;923234569;451928017;294618533;1417333427;1830780885;1908303929;1912258446;1172887077;663939195;2143949642;2147483647;262143], [377810631;1926990385;183054420;142334092;168438501;759417503;132744809;1314949884;1903728365;875284563;1874252016;661720749;1426304356;1462051297;142023384;2010731126;60166968;2108475043;1461669401;984621050;938758206;1602854111;285229520;418043540;467559650;1183532143;519975858;1323237986;231541765;1273476663;1150216135;687580382;1283252917;576362357;1297303264;427721546;486626183;23819582;601856516;665605826;370445540;1958838718;997358095;894678876;1537521472;1237079938;93771961;1373426774;1141076060;2022124895;1373721599;1335882672;362999718;2146720703;1619132409;290236886;323762851;61304906;1118635794;1467841403;873947592;1232101011;1937032656;4539], [3;5;5;5;11;29;71;101;113;281;701]);
(703, [1334749894;56429055;688350933;1386878556;526248879;37336813;1654573078;1164643933;686898029;1398512783;2028968570;1429027127;1937534746;304139515;133594505;2055242267;479888520;2008514011;2094913025;1298885748;2136415659;1241150658;3], [926637581;782197013;922945453;145239640;979104448;506189576;1832524278;552281867;1462961414;436872637;334978057;863468445;1880358911;1671781760;780767456;1331586944;1193534741;556693710;1753446311;1310889979;1915988730;1808157493;1943694026;827039661;1567441506;1527947231;2098614059;1046848227;174673619;1386471628;1777948918;1160135155;1020672382;1984349834;2106736510;1323579225;431000342;446446930;472291002;1539194073;1228940873;1441449229;469287118;1215955343;260270491;322341498;1744411599;521637808;624604567;99530995;653524396;966704677;2122546541;198337445;1875296173;810267617;947981144;216634131;339750167;1069145853;1190165867;34113601;1630074612], [3;3;3;3;19;79]);
(705, [2138393584;108244964;261400004;1055014598;553419884;1410720686;861906960;503024158;377851875;347566859;1275375027;1598209648;366568864;136300206;1653266342;1499492815;1785335148;819438359;481998050;1479645854;1165960249;2147479204;4194303], [1946865121;1583713483;38565383;1170062027;1283002627;1706376678;1388180931;325038170;295913255;216034990;1768340418;1827631390;763724414;94203868;764804091;69812536;1621657632;1505810921;2092888838;1373337367;1393058066;1249323880;864694238;1588285574;1533435367;1243826462;1507122192;1902347997;2133264554;862710594;110508701;1923383706;1150411898;245625786;1019548956;350003384;661649380;510545157;481553978;161833583;1243106262;1544093706;1383117857;2127441277;534259961;1516324573;481486732;1222049998;35219100;889180781;56797585;996240462;791059435;526379278;792739576;1007722941;2122525338;1210720527;415805221;1721029577;590776628;1739296346;1513298965;10900304], [3;5;17;23;89;353;1409]);
(709, [55412289;1998674263;1214509609;1537803897;1838890724;531557231;83529218;2077458308;1136888487;730787839;269293326;2063061123;912430011;1405457952;1486376102;2006148162;1941088101;84438174;1236873427;244527276;1201440637;2146509263;67108863], [300786873;1649397994;166338466;2097193391;1487163225;1276369902;1616090796;942575348;1065136467;1131547614;1542444369;909531372;35113417;920284045;634600756;1973632730;566020117;1450936302;181081255;74448709;190940196;2034733069;1066577574;1083704231;453640198;260540079;1436441395;1051363230;1954466522;1073866262;820782926;1520654569;282853349;1569839643;1107541420;1134315628;309331440;1054310324;55211605;1284802411;1985046272;1642341596;757483264;2114464711;1637478160;40758272;611680268;190342434;1444359977;722758194;2048354329;313071800;213955466;603989957;725993674;276424732;2112864228;1964962821;1876688455;1396171222;2033174053;647649628;1683696491;401827819;12], [3;3;5;13;709;174877]);
(713, [493561062;1936468695;1985031082;2053636210;529938338;330385807;1545876753;2087697251;1903709503;1683719810;1969727022;1556906463;1369423302;1333681059;380722997;2060753483;1860569582;1976305645;1559918266;1626597689;893254283;478648979;102901], [470298109;1854117813;1569520996;1094731514;142712550;1188983192;1017629742;1318122821;249606728;464641284;1002169619;1950651502;1007107506;850533705;1454559094;1906887619;2147064322;425552998;52318326;329942231;1418163745;1268489471;1129104328;481131031;447835733;70702178;959174275;937669233;720305719;773779954;1895982359;404590782;1042429622;801147008;1171773620;1626602670;1775312749;370892529;520488621;794473343;1079975313;1657534651;803912018;1592947292;603698058;2036721500;1588435781;1772763398;1044686176;1369124730;944709090;2093123922;498618776;757152702;120357689;489042620;586869403;1005302744;1331721223;1942586104;2057409989;1960127314;1431370775;1727072545;2], [3;5;179]);
(717, [1783677032;1365597351;2077994548;1271986043;1030524952;1230901937;1771486877;642553460;868796020;1874041105;1778018542;1872612338;2100076930;1852045939;1682594164;1125287292;1762611699;1187010424;1001549418;605514523;859437427;312901167;2146105684;7], [677476361;225383355;653316376;861538427;752237793;903367258;827190349;261591718;939839693;642809103;362609222;145401582;530886082;1309561803;1704472374;1141071455;1191986610;1193260779;1499629833;866232758;902147020;802325013;141510207;1006062641;2076737604;1164185101;1350678828;1309602311;435572756;661551501;961433743;1774675246;800029853;1042906077;1636884785;1285102964;562401218;141102196;1391944424;719299740;410397630;179347384;674627891;1298380083;1571751877;616124801;1806543925;1456493732;778370084;336002453;1747843546;2046898618;764384028;676161887;686236162;1512313320;1556197419;1343211565;995309029;1043555412;274119838;808335545;1021671538;907689466;70250661], [3;5;359]);
(719, [800977018;727437234;1637554090;1603932525;1639209773;335267906;1467642164;460682854;1774629675;1130019317;259870701;1164685588;95455427;144407975;328272904;1872921169;1465288308;1383718750;965367255;2006731873;2122690079;388338104;13981932], [1843651149;2041656013;5420006;1090165560;1838325638;1260179362;574393038;421098651;473699904;707157406;1035001579;1137050454;1857866924;1460143963;559016868;1936666789;622698377;1775689913;1883649859;1878879663;636832814;2029343673;2074568936;1264850460;773927831;1262192320;1796809088;1483502151;1232816930;1106651996;1442401257;1817313194;1468565153;529165523;831864207;1466825375;480100051;1223364494;134042691;1085678567;976643046;348165955;2013116864;554616895;725098257;1019795808;1806228899;2075718062;532509129;1652464491;242100422;1224529303;781507375;1848902361;1998275557;1489681108;1625636528;967046316;2091376455;1031149066;493606540;1469487745;1217039906;765522739;700436], [3;719]);
(727, [121351364;137838245;24213089;1858447204;10390602;1689926250;766110395;960827065;381730393;1805312847;1274950507;1718498878;1457271632;1396199576;877795728;187503655;768240534;1167383727;1002951875;41334549;1161973780;1531473804;681153], [2028896651;2056765673;425652502;1454945058;1207397831;299067421;269326311;1653646316;912622464;672124821;2048197768;979317125;309788216;1631578336;234628113;328190755;218497568;1868077959;373752651;1246429960;1837085755;1883645382;712812145;1215170031;1747270858;1451093013;1928897328;966274534;441606860;1850035289;119820627;1342241536;1980438063;2006492034;1820663799;502173427;453408647;916064060;1954488902;1791593918;1392413020;15117573;1613219626;1037118856;1024487629;108795303;1341121639;595036406;1059936120;1352590800;1243618090;567233;197229706;984214328;944285191;984314442;306167307;1779493865;145296239;2045181382;1551031662;1578907053;1383819054;1890004042;768406397], [3;3;23;67;727]);
(731, [768314285;852290949;447077276;992886919;1126413717;200790929;2010815176;523659394;401793020;474257984;1790579280;850758762;683251955;1277479299;1183625579;151985591;896579054;588731296;830496874;354800673;1273448249;177144738;1502740294;2], [440120039;1060623906;295934923;1982832928;40492873;723472377;650151554;169973773;1329174894;1036440450;500892385;1914324197;1545947089;48921843;626255913;548012825;36682106;1005925808;676843000;1733396282;357754324;435545176;104545804;2028352580;822650146;1055160276;1592078121;2136780589;174826035;803841411;1754175536;762907339;742763003;316322729;108824276;2059977373;134735056;542211086;1956528332;420713601;1202757678;1684626441;390579719;749338869;195313125;57365438;402317651;356459778;1019469497;1308874237;1730665870;562475590;2058460720;1483783078;2122482066;207633203;144945549;1433696372;199782711;480048279;406460161;673495770;1170361644;984976304;1593207613;457029], [3;11;439]);
(733, [1815387707;1417504386;1948411661;603632996;1858175690;28338774;1277934878;1289608374;824229984;1195641834;1269876825;2119067529;209674364;1627415933;1881538673;665899429;1255056659;55703631;1742633071;252676582;457933051;1770289167;3337355], [622037579;293394816;1078964119;1999693498;1076526906;1808642573;1436102317;569663884;1125217417;2102563981;721076365;1355295802;1208074992;2109787049;1587292458;1491615854;663357117;33924846;211314546;2027907335;1223467562;1351126288;419419940;58730281;72319448;207051198;1573136644;328581645;1346985979;456659102;1160051708;755769638;255203202;1148221963;249913118;38789137;1113623492;1385468089;22115973;914877792;2089878780;1393109102;432868572;1353125031;224834531;1660629330;152733183;1171763866;50224368;531335348;847142039;1977370158;1178925819;1434548476;1585104189;1421073837;240742342;595676719;1523732541;272318847;1328107787;930253942;746908355;2119463373;1612847750;3222], [3;3;5;13;367;733]);
(739, [724758326;2076843001;43076058;222981378;901431815;1758724643;1568660089;1387098879;1209762550;1928100809;1980305837;2057037798;1346401564;1480841842;1435221021;208990546;1602241664;872904798;621751252;1555090718;846053866;1922040940;606864272], [99510649;267629089;1092879855;1901589748;1182201923;86447807;1738589392;1896132972;1456499028;521374533;1161086493;1778478194;319515458;1660117955;713428306;469161186;805386127;744695510;1253170795;1392919322;983411452;1189902850;1633699105;1903536931;1208174638;855487073;546341301;590500905;1360286498;1093631196;1085859606;87232417;2122051701;643977964;2116748269;713232455;742414986;1484495176;1499092632;768317128;1989222523;549551843;2098182062;1788615281;1629149343;783966939;483698801;1249794111;2122102130;1661038996;1336791327;753552771;323685692;1901443003;1486357740;407556577;455141708;387462918;1516040249;662270043;668788444;1860804276;227711618;1324194544;1593711087;1077268797], [3;3;3;19;83;739]);
(743, [2022522516;2095846448;427033806;858828079;345711068;938412669;1606193388;2123699326;507787204;1522816712;1069701988;1243559306;840397717;176896646;354313625;1344758986;2059180165;301815298;2052123412;873480875;450042859;1687072435;1102746605;369], [1101025383;1984323946;625588847;52339658;892348648;147628411;1405173198;949743732;2031868762;1622967965;788264165;990461148;1379272527;377895604;1116175108;1450003507;813345953;1269788835;1720198762;96228107;1698820142;660247983;1123098058;1372704951;781703098;2078147320;1218271004;96813456;123109480;147322222;557672802;56550224;972496782;1856064060;498005076;1106428425;596305803;1359326384;1000982862;510430464;733362230;1052308471;1278793587;1633432403;1999153832;31446466;1433486810;1670001013;1901758840;1915091424;1733888979;2072591692;1705637745;1691248133;121853063;1522810092;980804057;2112258608;1708472835;2036198934;66055200;808163789;1438251900;625198148;516183423;1512631402;98431], [3;107;743]);
(745, [1497210418;1363212498;1262780264;1113066854;60934862;421071138;58096191;1633891355;2039887439;936807272;217943848;446004635;1395686262;759979730;1419848628;2011780128;1794007107;1741840221;1191752135;507360847;1793239303;784986422;1066759503;2147483007], [1788877021;221888647;81568032;1885217091;46294731;1334238879;1855799365;984634376;326567300;107769328;1650818818;644126737;1826822219;520585099;1211574834;1888360640;1628870993;1497155146;1020465819;179098042;1908672458;2128265807;1849227480;1934879102;1421032990;1046480590;743938494;314989161;1531585137;863558293;2023094174;2142843406;1037592355;408869927;770130444;2025020729;413454631;630752958;42361659;1540682630;224097123;158320206;1485221155;366557073;1459714532;1587651404;1481355808;351294983;620357475;1501710516;1795856300;834962194;1988985133;707612577;1160221280;233109405;84855893;1601619254;394430952;284749622;1933745415;1138585194;1285395529;1642124809;21262261;1306395407;380358328;3263], [3;3;5;13;373]);
(751, [1499142325;1903031471;478030166;1939580213;1055269900;1607905805;1364137583;583891145;707779034;1218052109;1541881673;834736528;1868817144;289945700;363021957;795460119;928906301;2053314371;50586751;1578506399;243494808;995811389;1057854491;2147483647;63], [523144711;236323206;1186902911;1805710946;1549903150;1025036806;777392997;1738594362;479445286;1002768360;1599685417;615066112;1979124538;595354850;1183773549;842557996;1299008499;1111019514;490001782;742912667;651396610;582610443;312338633;634182914;1083888695;952598386;1699544230;1070240210;51843487;1003768710;931277438;1168905880;536768713;563139860;558005162;252778329;1618840907;1690893566;128953839;1889032085;1358895360;1627633731;2087241279;509212047;1317490894;1586075905;691128494;1557154402;2091070059;1673079418;855316533;657695705;1698642830;434798371;31353259;1218208322;519216582;1706108930;452175304;634182709;1836236752;112264736;968064977;2125833612;839368660;871490389;591938073;383909639], [3;3;11;31;151;251;751]);
(753, [704315610;1262806633;1613604030;500915656;1893706880;1447351226;917106615;1884301661;402218552;1321718601;997024550;1243042516;359159410;1210640010;1650871103;225924626;273241056;1891010227;220961734;1871916899;1433167947;1728708951;841369933;435087414], [203722751;1368160594;1838573503;412407525;1163488152;1982871582;1663961306;1387409865;1991823870;1809878577;1037041444;1306958525;1269606306;550365873;1569010720;1411532696;1419369712;1699942725;348418184;1158986000;1698219105;1507001561;1445164555;1479162151;1465034985;710572588;978659002;329964682;877020523;1742352831;934433725;281168373;196460415;197067963;1172094250;634760236;689108499;884469721;404206575;1467316295;2056721348;1379638810;1618066510;2107711464;1967516129;734823562;1016258576;1719461554;1541676109;1091830603;1759289753;8278931;252652907;1301074171;434276319;1851186480;1898813042;613463799;2099284459;1720568265;2118253779;1027884615;1256789815;56454353;515031415;23318341;460321094;14887843], [3;5;17]);
(757, [776674128;1553602454;1336677478;879168786;548093284;1498750682;297923409;1096524716;585285548;769639818;222973151;534262508;2010053402;813823495;1366433198;1649993422;509800593;1774532699;916995188;1836435953;1484568226;865154259;1], [156880245;1720489086;1981596660;1003152944;1873186057;467642586;1104529680;657949244;1424567279;1622432718;311936121;354170993;182065726;1766192546;1056317129;177071998;2099883620;1345033526;464235333;1075998638;1650882901;1753967699;536513871;196873313;715825037;1248995673;1406249265;438964979;2099059166;520986963;698637898;1673992731;1141551299;142372228;454231448;237256636;671712212;1730922061;99100027;901846419;693945760;1006557836;324129000;86015281;18254360;221997590;554422203;1814159485;2139636104;1612442150;308073743;2091827191;826807585;1396042326;1116548562;925107303;1174080344;1433679726;1299993276;378768706;1351363460;416511663;166151854;1627309453;762160207;437046886;7], [3;3;3;3;5;13;19;29;37;43;109;113;127;379;757]);
(761, [1902126710;1403568438;1711926654;1743462306;113723201;1737040670;679726760;904484467;1397780102;2031616332;1559911888;604211674;1473794016;664955611;1458216947;1161100337;1340195605;625324825;1416481870;366156215;2140744922;1637927026;959736770;2147474874;65535], [1146026279;1042618036;1213208744;1265713010;1246507782;1881496662;2744837;421821720;405213501;636252290;74111114;1537551536;1788909836;758311595;402705147;2059354258;192128907;1932336301;1033398939;129306025;764086354;2066743807;2070465962;1951867617;1316680340;203293172;44654861;1753257363;2099885227;1605227429;1595687955;450965021;1732516389;137074561;409311798;1761956038;1758308419;1307037793;2005832157;614683599;141906728;381310111;655079383;1155771146;359419139;1399310196;2052653584;1933319595;1537040608;2010040801;765555243;173068229;1758809846;716665340;395833117;318926853;956224537;566039523;505390207;986306605;1935276326;290565568;1674044097;1036424274;751455366;1042691064;416847163;1655026899;50498624], [3;5;5;11;41;191;761]);
(767, [354891869;2077043888;907389738;716919242;228061078;859309627;981652682;327285158;1445335522;1157060734;714349304;1995544769;1901001995;762572146;1960089740;1867461255;314179733;1677163551;934639098;1960171965;1467685870;57854057;2128060426;1860274537;3835253], [1651266675;810464159;1934432367;1087613806;982578584;1097910771;504345391;1743779445;1213844692;1779252745;2083775389;1752551497;1587978177;749698736;1436971443;1019765290;439342141;688871297;1539054326;1171304465;1721832199;1567140050;157413118;1404416283;1137576166;556845478;180275428;55670800;529568732;691177131;2133893677;237311372;1836170264;347729822;1154202030;824293970;94204589;1722906647;2139629532;1642098204;225630396;405829434;680375703;1863411618;1643336078;1996100314;459326834;988872542;2126589308;1319021293;427790865;849227309;1914766193;338333221;630688965;1517868533;1714130884;468053612;74939365;1148103647;1092091106;1015186182;246354789;982867399;769078671;1775055135;494010127;599802114;1542224975;2529], [3]);
(769, [1451118771;1128044012;1180437387;1810002425;120629102;1860659361;144423170;634785457;1843295554;895646983;1430306103;1540539820;1979594110;1673946372;1428566368;2106417135;2103885470;568167838;1977138512;1188107026;688117069;380952163;1458801955;2147483311;16777215], [1162718969;1539976513;1433889442;139459332;1210292820;60473973;527664088;1787012644;737852707;1300534473;495144138;1375427596;1026765174;1545441818;1492343670;1052362827;458955066;1427758088;250545476;660135988;1254646181;1952980116;784501171;1430245337;1116621790;566449136;544775269;858784035;856577437;544429857;595511340;916731513;1516101734;1206804444;724197732;1932582287;278862044;1860490780;692492740;1432464140;452163080;1699559525;1803128624;1272735084;1139950784;1661161896;788339310;297979728;1792403365;511249224;993160383;1244568394;982722012;327285057;1446311169;92950766;1391361011;1528832893;758953332;1412811551;2011416491;1789880263;862497344;941423197;1845432090;1201314327;1339646200;922249476;1639271917;135560], [3;3;5;13;17;97;193;257;769]);
(771, [77965549;1942493340;885021217;1442677365;124823347;1842427336;1669723562;56665843;1929342375;30414415;1675439913;1613303083;222812734;883737777;1624014911;1591655716;1539306312;1898341481;1261056458;1315746569;450555196;2113175693;1442706595;756487179;38], [334690075;802624027;148715660;1005725653;538168760;1535783865;1251361142;1792145195;1252773696;148749491;241452905;432679409;467475907;820755917;1011995423;702543259;1685554632;1839751835;1118107703;1964521268;1471291385;2137028263;1308949191;980648471;1979039921;1051762588;36349700;514851129;1579295592;1113699032;1123336305;461167085;1253620104;1038306809;671433365;583094192;157774100;2088330906;1846828796;145360409;261480196;1192190137;811131116;641811407;1639890797;2103546335;1764523504;928438023;209381661;2136664440;711696265;1502466470;2091030370;1424184960;137417032;778906016;1388167241;2060497015;125929266;992429288;1296549855;1098877466;846744167;261693;435475747;1780017579;243583616;379537804;1709679154;3], [3;11;11;23;71]);
(773, [1391534215;1451890121;1528179968;2132981515;249306117;795490674;708553198;1974510655;904523054;1304873194;1372049326;488164650;602995936;732073756;893417178;142830519;1727907454;2064352340;1501351280;373977778;1551606200;800041006;283603920;1996999134;8389], [263422891;498527964;1477257534;219728611;624476812;658526109;277444686;1675808924;1426809395;1562190675;506609872;489025404;544091655;1288021809;1500492259;2080304797;703433174;682741920;1148817051;1659832824;1550378062;1698994068;1960250557;467108303;713721054;2072441485;2019548383;1696840090;1011979561;1147414208;315238372;2112125379;2056801655;128764878;1619915295;1901557346;860870667;1106676315;301337167;1229935135;1074406529;801480523;1445533072;1789085306;1334962994;1503829698;1291169565;759380492;1148449732;1376575938;31325122;2046851044;1678481145;1714828941;1064842485;62390438;424213121;1519683124;1579187406;1927447099;1278029001;1714821701;1462796929;1387079746;700974882;612591078;2082256942;1706362119;1924952394;10172], [3;5;773]);
(779, [969242494;1743321966;1464541356;1617651697;981228671;842311237;140971839;1932341687;134161454;464928527;1841594978;660715192;1298513253;468524659;871442130;204117378;1462249998;188153436;1977759325;2059331933;478964834;2092642008;1428034143;1856490244;432835191;7], [719289827;2145638157;1579537415;1785427472;1210393758;1619529010;2022292320;1648474395;186556487;1168543270;1047545804;2016579193;1540695329;1754161025;1870377962;2063318916;2108737725;627874460;302578480;876239544;633436708;569042503;2014874675;682377097;1261821507;2055839099;1598593097;25942254;1648958097;747706932;396734443;619215671;857069923;1525245997;220649171;153768910;502506538;1390630901;1730582961;1169389710;1334293432;1409753307;2120278078;97886218;1241100391;1526095153;1443992673;328265072;1513770088;1078252878;726432598;608666467;1778155551;1484228189;1540900253;417166096;2000679594;1592146177;203001800;1800443272;940284537;262671474;869542913;1458958945;1803577974;1987203803;750903601;1431863450;1054982972;1485475076;16051], [3]);
(781, [124575247;2014219684;189333787;1080215065;1409034677;560092928;755559615;1945018501;1497214513;469859022;489853725;96509425;42814862;1064325131;523770324;2058850639;509516109;1031075956;516513155;965375294;1675969694;298645487;126393705;1063], [1554848053;1212305193;1112568062;610315362;174920611;453229426;2085534966;875166213;222695070;81525287;1987287080;393922851;462671953;591464610;1959758511;1684588520;1887162059;1372770401;1248945423;15438614;728589530;2078394852;1425254082;1597852654;193331375;459517364;1439316198;679111183;1262921557;1838186480;1037562680;1029179111;63285145;1776384291;418646673;898985642;1386356904;227093943;346609050;722618280;549280452;1309664398;1290448150;1611692292;140795205;318900834;1086262762;674538591;1660530118;676716985;65648861;1968325181;899940699;1123017332;1523093612;314127557;1775352618;1653685594;337873566;249362175;1613672595;1344536435;1056455510;185060385;1062928776;1731554242;992939622;1864472959;29026050], [3;3;5;5;11;13;13;31;53;61;79;131;157]);
(785, [82985630;1480484869;222243131;1519262777;1099166674;369200361;1583255572;803810975;299897080;255753802;492916257;1951516984;1279773585;1968663334;944602674;571966320;1062506134;859997460;880531427;1568652206;390747693;1813093118;879841917;14352], [583238143;2067679797;695004443;2061679964;16803557;1955006706;1354227195;300642145;11681908;747128351;1427663126;673461688;2056829470;47942588;1221457077;501552414;1391684393;1892860772;831814449;633327944;404907757;821181277;568125478;948285402;986712488;1031475094;1966842837;1828212414;376439310;1887228016;1410684081;1836626645;934706554;486689836;1791485341;158236983;57792669;336224331;762034342;1993174157;916928201;1093473142;1612250933;602547144;1792118186;445376755;1357213569;1296046890;990376214;1378215136;57777695;505912401;910388359;1392757378;405500328;2067250603;1287666095;1428007234;697321631;491295604;1823088002;56602470;1601243080;949235970;1513290716;186484211;641582681;186215625;824754373;27], [3;5;17;29;113;197;3137;50177]);
(787, [2016275810;196413437;108682371;304927855;1668617305;1794445616;548110886;201953983;1414899422;987842957;1730400740;1872970534;1552252831;559616015;406164692;1861934498;1172994373;1527879011;1364574804;1180752135;1338188774;1556526098;1693793130;692324268;729199], [122896205;111762397;1760534830;464385990;2042648552;2064926791;1887875577;1961869800;878768016;1864116924;1861464520;308015258;1925554307;1584639108;919444882;1427922882;1730757759;129789674;953389968;1993442630;969432528;1702710660;493240639;1098328;834770016;1087247840;342735600;1454415988;2078772175;872391985;680076581;1988041576;344988946;59044290;535123743;1307229800;1636545942;1996261091;1197673020;429115296;1087126518;273127713;1252027686;1969918652;1519229820;2126503982;899266739;403306519;1279555577;1818494971;1822631696;10444986;1832505407;795699869;932812155;2012045977;364161741;1951749975;1886795434;2049565147;691804432;1975682537;134184299;542704671;213779760;1605230813;2091773189;1181571886;1634952850;779951788;17043], [3;3;263;787]);
(789, [565938406;497813904;968449626;1994630946;2020679897;1258591347;1245629763;532192216;731493358;1505079623;1854529251;1061333609;1645849056;1096054476;1648950584;2080396197;473367300;903332304;469606451;32697815;987830981;1305001908;1521807581;2014202143;645671833;7982], [967197391;2064487997;1343207220;186609490;904617367;845738845;1957906102;1377384954;643513122;1098282611;1569114257;65088219;1719485517;586354107;792009511;1730139561;622764547;712406033;1169052826;428383633;338110925;1330649608;86148256;1786487604;498396695;1157323846;370314074;958043957;1934650127;409166252;1822752121;1735625348;65276500;1071580076;1307100771;1296084559;1611420361;1188821444;383255882;14314130;67075750;13519667;1444842846;920889152;814134511;1602873237;1218812956;1499085173;1617785848;523129668;1441229616;154921524;2117265190;1073969100;1978702557;1286135045;1155924139;1749698982;357407681;237029360;1938634094;368970838;1605105289;896856703;1531864498;471670065;97876870;1628840811;320073366;1995926006;983192598;2285], [3;5]);
(795, [1707294927;484144539;1891160169;735298845;574813198;1727413929;351136863;270348165;1677357791;1850582922;1068856790;2146685576;319788967;1536936011;1716832637;88502308;136582804;947895881;151892128;1264277510;1864759423;1109731189;493683818;1080823998;1755517468;524268], [1734125917;780948722;775054916;947824387;1172610298;731248605;552915512;118488656;1188381183;198083336;1231343910;1382939231;1453274467;1106740381;211825025;1089290223;1626712616;909792082;2003167841;1332409115;305684797;843058952;1764007591;1263434696;1340672719;793875803;1127321740;1280340643;1448982955;1951359451;1318438651;1228395567;1003070150;42682370;614042143;320074136;482508213;2067358163;1743737373;1479159717;1647463694;1628825779;1507056624;1149792622;649000305;1134865418;291059830;1597996291;13199374;2138808455;1346538958;1176206148;56603225;835340144;1283670858;215272889;201721300;1016053737;759767825;2120161413;2003667627;1114056880;1048870802;82282511;56456493;117264983;997682070;1192118666;2082141887;25981768;2066412698;275935402], [3;2383]);
(797, [1866535248;1757348244;859038718;810050773;982073588;1366615334;1536702930;1895274030;1738283740;887017289;774797854;1656445556;978560665;936526844;1403055394;1384207364;636712522;168079508;1047189718;502703107;1366300814;1584387143;1541850713;2111242659;1900228942;2097141], [708398259;1610984148;1494738545;1942809884;903608645;1963745627;2120116456;2063401440;1754902324;1312555980;1543663694;1412330915;1475951517;1544282798;535449713;2069013773;671527253;1612404348;17332397;2141468632;1558444767;145000926;520748200;1331573138;1430388756;770296234;548747786;1166109047;1784372606;724212310;1006077592;1973817651;51704858;580461374;267331657;358403771;920299740;1810537220;1863450048;882362465;1390187937;1315557991;1463888565;1057123584;2803304;2120801555;1924923131;529374250;860922420;2007145516;605366781;184467491;918351739;1166288178;1447474165;1041762662;563250772;1087054871;704451462;1509645530;441826578;1892811866;235268041;585416592;1443717022;1950513050;824050505;815554892;1592897732;1982827390;517384895;636362355;6], [3;5;797]);
(799, [763837594;652232877;707251038;1938841205;367920700;307108226;962523798;677011034;2112924410;2010507716;1534769209;270748928;670629589;1623497080;355130848;297376159;92567449;1089102280;1324513825;269946292;61351306;1147964125;44143426;1887145871;1094063730;3919], [2021074531;1306188838;1085853561;412977167;1908783034;636265541;1876410107;820107175;1778640840;1449037710;2114388708;1381564055;146565557;1361279857;1640545521;1444514489;1307640765;983114336;1853992918;2034144257;321008440;1933886023;953482904;1316821842;529247922;5628198;1103174410;1274038095;88900992;526654225;1456789724;74823029;803798374;2081638332;1159340705;1454582161;482612076;845964399;1380511776;731589787;2072366745;973188322;472142836;972808683;428183406;2048559622;270463460;445426214;504107544;474618295;1567054060;117316839;392876223;1852390544;324323097;1074065718;1721126445;743930827;1371769630;892536901;1465745944;1509934561;1874177950;1585985406;1644422845;411961847;1921482540;2090154145;1425299282;1037035628;450142636;309568877], [3;3;43]);
(803, [1152942120;1335785847;1447027218;689021666;1114046217;1087317212;214526475;1246070403;1534948282;1934690021;1762054095;1641580750;1840480101;873463420;765319877;161829049;2000410617;781621970;294452915;2138729997;1734385238;281197347;957984994;1117393084;1924847031;17812359], [134414467;1455917954;437605822;1125464130;79999448;793471621;562795731;1919759376;450763200;1791992402;1375613355;1759468527;510627144;1854408583;1999865623;2146872750;1684456035;263166027;1322521807;34947491;408203153;507388632;543401230;1935870198;1243569607;1116732017;1250283377;1184613448;851002306;1563738912;1346087930;477665356;456674138;422039300;543095;2083053826;2131891267;1363518132;1726955496;174583703;1843637112;296975660;1791382240;533958417;1018676189;642128353;1315969363;992250166;1438869359;1983222803;874197168;1025579603;1619711863;2044247731;1060868815;302778096;1828535103;1888787148;2102540113;1973299502;604034873;1701373664;155695710;220722386;1532388324;1154730986;1290423075;999892758;1218691222;1625161600;471450740;236785254;98308], [3]);
(807, [941389082;2008940569;922041534;347804052;1031009632;746611921;1601259922;1467980156;436965979;1261072016;466961044;1489429401;1324504608;1729641612;94513539;1581407870;1842772665;216619778;571099909;1509253346;1943784759;1200614774;799982325;405243442;1207703312;2147444672], [272900339;466493207;906986925;1214705215;542085459;1020880213;2145888963;893736288;1664531717;1849864091;1428190690;555985202;1515800446;1362858315;1529770003;981339740;195698336;1055130381;2085754526;457228477;1000299501;2003381093;1469998553;956604166;1788821667;1052630750;1235573804;419280606;1873736644;1980488230;692369352;939794509;88318166;619232772;1649057881;1117918492;1710149616;1357035211;1818294808;75320509;1224002591;1074918012;2061630798;1629888661;596860634;1470894256;1606696978;517366801;1860344304;1120346584;1062462433;1023048529;1770186500;697250595;317951714;964396616;1769839504;1349635402;625832718;1806023490;872470672;1795118368;190318232;1699879073;1569369175;1093929644;1824232162;940993381;1195748518;1138542064;570849272;683993285;1778533489], [3;6449]);
(809, [1662044923;1858769509;1973475021;398264874;1571471019;182491282;873827908;1202025061;2147190148;105017744;1757363950;1203954747;1217740898;2076915301;1321172809;244755753;654838105;102576530;698999880;158987587;1949445299;223837124;191335430;671656092;1929203720;76050], [1834471463;484773222;1827739387;538409738;965380802;1737310487;1216645250;1157002256;599622364;793682994;1462351571;1060689186;2032632788;280183701;1834349943;1533325936;350711214;915037889;1579510320;2002496022;1241531845;371536854;1702748334;1249278816;82834742;1020803179;647065333;1134822348;1124874459;1077297429;1360272123;766409219;994186327;1499443027;1482710777;335868508;504052192;1186206007;1251257619;1665946930;1601181592;969025517;1518364696;2096148284;909846119;221457114;1695737990;1963775407;1311472268;1234928364;1439017575;2056766849;877664403;596633393;1066426101;114523502;1455874941;1133615567;991100591;1971778857;1805809091;1844590373;1379494197;1550507732;1236413350;443064739;738658956;668355063;538708316;1576338390;1403658015;389816481;771579], [3;5;809]);
(811, [322450006;1483367853;2131815780;1252758114;1281964859;1689362175;531932316;126155184;2133249135;1194468187;798858470;1528110020;698060731;393428847;1956935260;640615742;2027661935;946917981;1756703230;1518904228;2132504140;1207433947;775595089;311014406;2147197663;2147483647;15], [2059674451;703635046;771727729;1216906852;1346050156;2060583351;2013560195;2101913713;1006595431;1685286816;507471466;509687981;947709617;1377237639;883718715;844658510;760771555;1565108221;1620408373;1833354376;373074536;712649150;790543693;327871514;2137653637;1529734151;1301087350;2122033580;1522972982;1070299200;1696070973;2107585177;845067865;1240825859;1534541874;1073314363;1445265607;1409497536;2113387961;2023877220;1259426485;1839883912;405497128;632919933;1116717788;594829868;1849793326;1797679481;422810613;1430138594;785744152;399348658;1076595142;1969984641;1174412242;394820005;1517111542;595573694;1212332164;343873966;305600849;549323719;291012253;374889942;464773520;353549571;1737385553;1575785435;1864185845;1364194573;528550376;777644952;1138919470;1988], [3;3;3;3;3;11;19;31;163;271;811]);
(815, [522775323;992353831;527148195;792815763;595197017;1430705889;1157545856;1162674050;928440370;798317202;1824526433;1448702264;2026588194;2076900637;1689379070;1299584382;1255579010;88645330;673099942;1778362594;1456654018;1089049420;1995516341;1026454393;1991727741;91], [163225619;139068776;1981651664;1437748907;123522096;2038572244;451785819;1913269589;1516876816;363301828;89705936;1754363641;1255084421;767554998;325784074;700857448;1071835891;1845683701;1218164515;1905262348;1335184830;1999986940;1351385275;862306281;93213626;1948331554;415278540;1119828851;1314525552;392715466;545062367;922511199;590596858;1222809109;1886525917;1208297553;1904980507;1021091888;1181145372;1548014116;2091772115;228580357;515852522;1922532811;1331885243;1392822093;1940577062;211715727;19364401;244206198;2111462766;2102795996;153958356;96123207;853928774;257563926;1814646905;1777616424;483371620;1462905604;1583839580;1197969450;1294065258;639220680;636680517;1910627092;1357426867;245211546;1709485747;1249513682;442784039;779734733;1714469], [3;23;223;3257]);
(817, [1819686413;194520166;786489201;1082245112;640219353;927753663;1689658594;790901151;2012294811;861851054;527456461;74708247;1171660765;913603616;1397806148;236416545;1665679528;1850142113;280343449;501091250;1393058667;192819690;880620264;246917052;14153], [1009002679;1207670629;1880489958;216363991;844347804;1547548842;2000438656;1589658035;566075202;500139466;743427204;495127037;242717080;1303362028;1346918267;797115964;591584953;822447188;789454656;273296210;363585834;1420245415;1824401041;366454962;1674681876;555357637;496615737;966508882;618748482;69385273;7836368;812087710;321005806;395743827;2070722785;2071342509;588487840;1606381404;513400422;1657734084;1398647221;546859212;765539843;223860066;384245786;1656894238;817665719;1197891088;217138970;1883049304;1634543822;2049114582;440927292;1279292820;1007515316;1523107040;1004871854;1609157762;1199282925;715842267;1114879092;1956484914;1356969052;1637598909;242629969;1610687895;1594209201;1573654296;1723908243;1021150219;406748851;1086013947;1], [3;3;5;13;17;17;103;137;409;2857]);
(821, [1315756079;1779323090;1272034261;779503999;1365357351;1603409823;1848782216;904044639;522231331;1306525895;13808798;408997709;2054032202;1900201540;988071734;1560219448;1463561741;835339114;924502611;605419357;1279805950;148737008;940160149;7875125;457201406;2147256568;16383], [354644311;332027443;750422983;1172040316;643171767;1760887892;1018124617;1537439472;1570173760;82297356;1321531375;564736682;1580943693;782476362;1838446476;2065081540;470875966;1203531065;1766901501;1584197783;91020496;1516903849;1673985632;75708734;1617958070;1074169950;2017916878;695964570;138886579;2108007777;1903977144;607148100;1562688368;113167829;1400115697;1354947436;1619499584;1029750270;1224066475;1164804591;459713728;2066959266;811554125;1668393884;1502188374;340081171;1526166776;826533962;751745716;1159503134;1128854540;1093125200;306809917;1594811594;1996296280;1108209353;1704199348;1319695596;694035196;167691280;986483873;153319194;1664642969;1087760249;1830865275;1600845937;442806550;117525688;1949363844;366498361;206618692;941271544;1415589216;1217370206;261], [3;5;5;11;83;821]);
(823, [1888495317;1981052040;752618040;1960142016;197255124;1363704633;1598202304;664047996;1285553745;57815385;1819676490;2074432817;1886192554;134640988;957649757;457758786;1183377778;660101815;10764618;1967606427;1764713679;1216959531;1166151436;1367776622;602974561;1429965048;65531], [1621347231;947742562;2031084556;1774145864;680437625;702143473;1438815281;302976621;813843754;416107716;743791540;338653310;577596168;539706928;1005008565;11677218;502230135;891607991;1470767822;1147847349;675864487;1340275936;486764806;1862040123;433543153;1630228076;1266082416;1485944927;1927299340;1386923135;79405110;79218394;1192809376;378682822;425672088;408180929;2073667153;943074248;1617080795;1369885987;429890585;1853241094;1091489979;1991882165;2123324000;878116738;1963021012;1879843295;487176571;989484355;1379129445;1270287118;1275260331;572231582;569617541;1878923089;8556370;1624806791;1440872868;1095777769;734359259;2031307695;2033113773;839234098;1472204775;271613867;2023760811;260422191;1560688063;324692860;1461014960;865777846;262946493;1996498244;12815], [3;3;823]);
(827, [563904953;1284429553;1653868889;127773309;1964626524;200405591;1564572442;982394955;796255520;629515017;458366400;1048960805;878695805;1756905310;1107300731;429066141;1357002953;944084292;525907673;454558483;1127869950;1682133409;1767231689;459639093;1108643996;1660323082;1048391], [1249979841;131156864;1112898720;965347982;1406320542;114088590;1893782727;350767993;1380177169;2125318093;45824657;73231822;122260767;2045015853;1551560075;621590309;1958137179;1850277444;1129296301;678546767;1594662935;459746201;1052303237;1496376832;1148684398;621070031;302963676;201985557;1902311383;167793500;1941740866;1371997494;898059805;558399508;1456318532;411633275;2106859739;112699718;1890661202;713829777;132864329;710380811;641763447;1238938317;1268552183;174330426;881281849;905836381;394117998;473059044;931934267;315309795;2079701100;1698279508;1428351788;701380456;1722170738;1471757697;2016969392;952209639;1404927998;96480688;786147404;130132079;516440722;1739447040;439824567;1713098428;2122964712;1879098361;1131856921;1751449851;1086979778;1552001612;30767675], [3;827]);
(829, [2056512639;2103224303;1140075722;1803216;647534942;903901446;1349463168;922695265;975650158;423557504;196314014;989299410;458028406;208472165;1326480574;250397858;44027103;567163513;1190317795;583214360;200355049;73604884;1329969178;222063006;1551302987;1], [113242649;248307589;1187165949;607417789;1453860177;101105281;1154730015;1433472947;1547084274;296692827;15701519;181081516;1208124645;120639223;192987053;407139873;1205441797;750794557;611352125;118211283;1391551642;581942208;785389049;1307827282;1719836565;679712835;146563199;639216473;1380687734;2069865289;594736858;1706131651;1373901837;1358620005;1347185778;2002855335;1633892957;644975998;1027054504;552477336;2034241841;882917428;1718604947;1197154901;1995424566;612621871;1150466444;843023519;159772153;165071577;1796986421;295718228;1892444776;1286607669;1805700965;483348504;1400112859;847296191;794438541;1753449349;2001617962;1949063525;1597064182;1724504767;86109569;851189344;1951741105;1490385394;200527381;314576346;865243525;1665319775;446766853;619], [3;3;3;5;13;19;37;47;139;277;829]);
(835, [818581408;548704974;404288901;920924197;1064213162;1591598984;1132655969;656493591;831022362;451492158;1339824109;1919334919;1712729774;1112774142;325979708;453461874;1524484559;1960033385;148229470;858011575;219617652;1453126573;1935565609;1080737821;311110975;69623284;3378220], [1574982153;1444082196;1672978468;408923416;1919071532;1275196447;1631697804;1998288628;324885303;397169169;469306967;430078803;2036753932;1826054300;1137519042;1561342838;775230394;1462140605;2090117638;1284288308;913920864;1285403404;1207160123;1261388870;961748492;1209981807;204805939;7363305;585633830;1142982784;675382059;1818662804;1000707263;660800981;1222147432;259283612;1478046330;375849234;2065658562;68676564;1711314583;180051163;2097239594;282439269;921660793;1839091818;1411364870;1781307543;969905868;1024726765;944871431;588835962;196070154;2108245564;1633887508;322534846;617197704;2037385704;1699310438;412698515;985621915;1272990353;1629777579;1897344562;856798163;654197319;391029013;824394459;2028032801;723008326;297604801;1793022438;120020047;1833095647;1325690896;1039], [3;3]);
(839, [1857983991;234263143;342441908;909712853;649339182;323150808;1180817993;2005563089;1085258990;1298456979;995668461;151159917;1713363275;2035934121;1644314232;1986509915;1733187135;1791584284;62938271;1832846111;972655028;1687623785;123091051;2030288079;2097065109;1653094552;34203], [356163557;276162142;1139484878;2147009746;341237129;1133194085;919634950;1114974482;1825359660;96477265;513733079;498370863;341111590;678379874;1727761311;2042171743;2103079539;1790024151;1943667464;1435381580;1869841789;1048979462;1893979110;233142548;2054941017;1094723586;1992576539;1475226967;399161132;1739774439;988303599;1700951207;1871279162;1076696834;1628646521;1528449289;1205585383;1950270712;97769999;184561239;1109180745;908858682;519619153;1350074730;1341504056;1828073025;2031757677;429414305;1379662430;84687578;1391997811;533938815;48634408;1554649800;211457631;83668725;1348047152;1932655107;424707116;1327975991;1112477553;734257413;1771856690;365551850;671443081;750266986;502843832;141300332;451120449;1618085734;1485736557;1041430825;1809300743;539683323;1168218603;1579], [3;839]);
(843, [1056788775;1081058921;845295500;1119892413;538382113;1796717630;1610666181;890091509;866110178;950267801;1356995134;1538317990;343303089;82906750;347005100;1648193725;1747627446;1543001551;1346076300;357465464;784711117;477800926;708376369;205839162;1512619970;1761162433;1391510207;30], [723747699;948334305;1335035832;1377689679;1219563856;1907399179;594468204;1631175590;765370623;1541056397;133536722;2005823022;321519576;674749436;908256566;136194981;281071185;1927608007;975378997;730315491;186068726;1223743936;2018112297;1604295455;587369164;1248632102;157694782;478691988;964349447;1872703482;976994205;584832487;791662909;1105153661;1833454839;998866192;660229269;2121799451;1675297038;1913122771;487041463;1372516593;1554966906;1977066619;1229220244;1762368037;851400425;1386055221;1331035481;1130224869;1382871493;300936972;1936648330;1784452257;275951101;598034872;650828717;1808714072;1047521227;617242107;73499177;523831079;1539980676;1527155501;609234372;738071831;2016789636;1619326829;1636023038;1711199383;1142230582;712204195;1650398613;457790587;1952242638;835011536;212], [3]);
(851, [404796301;1397217087;2094886832;1861467960;1389801351;667328224;995337121;798321913;1384164424;564013184;2025476133;123801454;1600991964;1327840248;1811744480;2037856111;867939707;613244962;1606536603;797571716;1852176401;1133289976;907214217;454525261;1502223257;49572600;872386773;59], [874235953;1366302218;1950701696;834735885;2010318500;634562948;1414927969;524464503;877050609;1582353091;1592317192;443180500;1742010017;1652557919;1959517941;343923056;1571546927;1431895509;1434571923;1438602673;463357787;1490266915;1350347542;627974788;677854661;565998396;1113108406;1201089681;1706593745;1350249027;424090632;1850927524;1478138185;1322759139;614163757;1713292052;406667491;2018355903;708420349;117308749;369327441;1614303706;127104425;776617426;1720955779;1748020799;151030412;1995732288;1664592541;738771970;156649387;1451742146;359711287;1143428572;708958807;364617173;450150848;154717011;205464662;1130283381;1989623467;1143117938;731754171;1754381940;1050663042;254327228;1053107009;1174328719;2068285487;1621499379;1041112223;2023952450;1434796304;1311959354;1540132903;1321841495;9270567], [3;11]);
(853, [1146331378;728304707;506200230;99336780;108936182;2012703351;144403599;605395300;226857156;1562015447;1156400830;431673670;1474384116;1227151146;1203079799;2140570241;421163837;1238580261;132618476;1515139059;705091671;1049240404;1265911343;1827439170;194824438;1600245041;2147365021;32767], [224805077;1348257229;1600092034;937994687;800715135;1946116286;774699762;1674575435;1496240533;925559217;1392683050;1814610707;324664634;526647235;324311705;36768249;1569567466;1560632974;198100657;1800502789;1940044623;165672655;1252134792;1768817168;1828374903;2068350137;1524485583;1983645011;2016729569;1952510031;1577086412;1327087573;1217416954;701368337;89654968;498979182;1000503570;1305989175;548745840;172913436;1081990876;2046723769;853141536;1088804029;1978284025;570835894;859770283;1514813502;1124702480;818399485;1853820094;925033083;61412526;464773923;89844801;2048192921;2000747853;425463650;2079158558;2086547806;563157950;905938199;880070036;106747067;798833871;622229995;26731546;923893894;791303236;824252773;931113538;289085888;994073439;65855081;1337593713;1629452222;364208577;29], [3;3;5;13;569;853]);
(857, [1151244973;335260308;1603947634;1701298729;199497375;905006785;141647428;1358472904;1125402608;2103608409;1539813417;597440663;364855134;1766066598;721703617;1173803834;50670303;461926353;287835372;1761845601;1481084906;23168108;1863919337;643824767;105251794;83041783;1860029269;3], [289692919;708875072;1707116040;722685546;4996564;1194018420;1683898378;42302084;2021490004;88578512;1776819675;35748157;1827648556;450736208;552544125;1567020604;891080336;1727129854;412652582;1433912832;818016482;1052448044;1778332274;2045507110;1169517835;2107080753;270748039;1528111204;447437470;1458966763;1421436349;849716316;21612519;1457995326;1161399974;233737329;1665732770;444986194;448223843;868721100;2135409712;457762351;900166235;15343246;1852916354;763519715;937115004;1939463968;1918868044;101075215;909082680;244048913;452053392;1160835814;1341833796;1824003433;583744834;1906600794;1959791531;385331455;147538967;549793342;176779363;1486072954;493513453;1960837261;64980156;404015230;1762189815;187898704;971579631;82661436;1496988054;123415723;368527335;1356738947;1109074024], [3;5;857]);
(859, [667944032;867593168;1996897217;987512008;520573335;2114196506;2061691358;484059704;606715385;2026389088;111765983;34152318;694848728;740486733;905039258;912490142;820135978;56966508;1927072862;1263301361;25858245;799111081;516246619;135708769;854172435;135426530;1497575], [1483726001;1764862482;744543362;461682247;260742634;995815069;2131757729;1231583495;1237965676;1382446309;27154450;2066465381;493095469;902033477;704057018;285689168;712219945;289443538;1584404878;2029180604;451352168;1437709210;1602633022;1772441708;474824218;499981250;1282454673;1518082639;1328045432;1748791942;698376134;1790453369;1456174820;376730582;1550999825;1217708215;311496333;425170846;969662415;386525783;1917498377;1575178932;1437301674;875917411;600098414;1430989374;146612012;288940319;1920972813;1424746768;835090180;933883927;1314323616;201609364;792781463;1901951407;2017062066;170299216;1070543211;1910049104;2137656048;2132082053;407174618;1901802336;1285847054;1771007515;262543680;230335842;2036836175;467051326;507176624;1171828726;228972557;1954751721;1651175463;1927530249;2450627], [3;3;23;67;79;859]);
(863, [1352626099;1404979009;1801420888;361331976;1741678086;1258401961;1594504195;1676171786;1855726788;2138565383;488914624;374876885;171416892;1339563892;750704100;1980428297;2145755413;863517755;1260005333;1276667323;596644629;603101042;1521760888;1618277892;47392092;1442195678;851876845;3021], [2111960493;1390690050;2108469391;815212937;2138976621;1175208566;1719010392;49955704;150908372;1870239813;1440375686;9102530;767580651;275170040;888957094;1018687447;503548387;1458924999;1227874766;1468206309;1264001922;1294121215;150830916;783192242;1316393174;1366053385;1427380690;1949492074;473142914;999214159;479795285;710892913;1048504418;804402885;1222307659;1549685446;1193474710;678332552;25620279;1119085423;853816032;1708375005;1939719090;1521429408;911494738;1940139188;626502933;581765440;362104788;903500376;1389951226;1226130856;1584356174;873302124;1080338262;1158881903;1143122270;1300794657;415119721;761967538;3238801;1912710677;174735372;1007456273;1141682396;958834913;1937305058;1665457525;85384150;1116451113;1327881401;147549304;1920060280;903434879;2139393386;1113009466;1830471798;741939], [3;863]);
(865, [1863451247;1587145968;9172477;169682496;833159116;785499780;1910904006;568199215;839248539;122345050;36138114;625945298;1880698879;2145733131;726993695;934912484;291268062;948496144;1647672558;1932884186;1307217930;640139483;2007974579;1805348047;2095783136;2085675521;2147483647;134217727], [934063739;1196025357;1898234445;1744064363;1339125745;601074983;1125165258;1293108150;439201156;537742886;1123775041;800505373;1329367804;1268056495;521230894;1819046574;1586510063;871340113;1659259370;1198402366;2109734195;207518884;581187961;1223700042;1875155141;1952435314;1523216292;1550959364;483747138;164703377;956648674;2080579355;12730866;1856562564;2024996227;1848828522;636711531;1786352157;1294781915;2134343733;1919729938;225147065;1927237108;894920259;533047972;2113371449;1198415871;1604856135;156307049;2081217097;1398226421;1912647231;2002447638;1940370858;445038337;596598427;1007637107;1581131136;960220997;516317128;1540560200;1625157188;472217398;1533232777;488281064;202083502;918955994;502097072;27229219;97109845;1432131997;548897149;2009225846;384122140;1219570940;489681757;1822486802;17856030;188], [3;3;3;3;5;13;17;19;37;73;97;109;193;433]);
(869, [736056107;91776036;1972880660;1553959955;65875731;893143701;566370086;1512893371;83062107;1769065836;947998550;177403354;665304068;1852138648;1486678999;767784874;1636559263;888249322;517596463;1530456416;607594587;1956899980;1301412145;366912005;1727526148;590867659;1850023741;2147482368], [837179875;1543205209;1515320776;1361308130;897905236;421326432;1682500552;1770304041;1869231324;1660424149;439310718;1497462782;2141076502;1494165410;2110567543;1558849255;86179211;1370260170;1653190638;683428209;757582144;95150914;104802301;1466756181;475584266;1586795652;701911299;551718654;265700461;1357721719;1220582643;1208958990;1515290728;1183152196;1972495681;342926518;2078810506;38416577;346053990;1208765944;746595682;1231946018;912915676;1517230147;1731010537;1800385320;1067099934;1543627789;1364082605;606175124;1714888180;1655883312;1588379346;1785094533;929290459;1427955405;1649249072;1519161119;1794763503;1111179966;1165563412;1722912367;1158195699;810307056;1712361761;1521600765;1683094656;33409729;1948088574;240624992;957735009;926845914;956069664;979269617;1623215751;596563314;1443337411;1492727442;451407], [3;5;29;113]);
(871, [97289372;1816462279;515017092;776813449;4009767;1138563809;1279376310;1086768848;1359244741;2061572244;1078776024;1727607479;150975992;635211114;852566174;902842596;1633598380;1960034382;333564527;1185538929;1180585917;1697834757;416770025;379506149;1722187788;1704707543;1241317117;22140], [1714420623;1325006360;718487047;1960231510;1285194370;756666332;1085788802;1313948306;1289719577;1533572351;931923251;496293260;418767461;978259420;965767665;607992608;1743301091;1899633969;186141443;25540899;1378777811;765843354;1982878265;1102837973;1881627781;2038465947;1432208105;977493695;1068914031;1895191522;704023975;339510367;1863404685;1364052358;1475737290;1624102903;1894444053;1589641662;1180152424;1856345657;965511192;450257578;1830611242;329779271;2147090365;1267814231;646611586;800721785;1379843955;1100356253;657814801;202359688;1609029260;1378113864;1824093373;1737529591;383777950;2108473833;418766365;1402198528;1814203422;1020457662;83797818;976455931;1268231749;1258898310;1863861052;833869338;364329988;96775478;79276046;311798129;1028431150;2109606401;190390206;1749379566;881722542;25239394;57], [3;3;11;31;59]);
(877, [2113775721;1271608262;1261620473;476589475;1753043361;1834666230;2029345677;997758532;32284959;665837810;1469493783;1382420223;1121053735;670076138;1921342147;583776701;196768520;294450471;1912251568;657062969;1681825525;71444465;237148647;1907929602;1278856998;1863551910;501175320;2147483645;255], [1113480527;1480086167;1045055713;488892922;10945285;778353004;828887004;1645293009;2032872475;1540452800;1482257160;576385404;399517264;1312438458;839519942;1850162676;1791405893;1593004695;1806397016;110773266;1444072753;254438546;94037334;401682630;1785769950;716454469;955815319;935496266;1815577483;649085220;1435054396;1335608859;1517785493;1498719093;1448915711;2046702163;804292892;1355563080;528581085;430442473;2084596504;948968252;450008298;723248479;807639614;555643738;1931993954;203833511;113706318;885840236;239256999;1987855375;750441712;2120539388;1084808051;2059407233;1227178538;547113418;630903543;249023632;556546505;1802087906;645470272;905546332;1375152168;238132171;2082334731;1598520562;1956551383;886610557;801235675;1036869020;1953818264;1018635420;1938727542;230571602;358239124;408382072;1674384444;1211], [3;3;5;13;293;439;877]);
(879, [148674545;617381470;1461466782;946046029;1760824426;798001204;1116327835;1053654693;298763012;855761322;633055085;1091915201;483892463;1109525662;1112214003;1263690681;438923982;349476834;1332677823;977756243;153326176;1731509359;1942026212;650591923;1714687823;2026108535;2109856079;1794485107;883], [2014256563;1679116563;280856944;364107896;1549168176;1128033891;1313757469;961698645;142534351;24761738;1671315517;1598035507;359953469;27622218;822849597;381686174;629535327;1401820840;404391786;924998498;70311913;543417937;766448856;296741718;2089411465;867537290;644039824;888355869;498297111;2090659053;658105299;1527246586;1417548666;821676853;779914010;1452478018;1084385114;841456779;431375319;198236750;1365074857;1665614964;230706729;148928299;1358299743;1149025038;1660456216;1442555811;1072353768;1019441771;55241354;380254890;1240124800;646508255;589780293;1794850951;1611636314;1581029416;1577978722;267837746;569074495;1766952682;986066422;701677597;763809341;864503382;3071472;354724761;2088011289;510117763;588850209;1475115902;625259858;1906008930;2134728352;1366358879;1765305076;466517914;1495313907;51249], [3]);
(881, [1205329073;1249447915;1590427908;1726290608;2066805565;783339877;2084926313;549390942;777341354;1243772314;28339574;799049462;355299711;324782798;1674920666;1096270906;481897753;1713402890;216366229;1308398932;1278468246;286599598;1129879303;816459082;1521669768;1739423598;1322682302;2147483647;4095], [1963329685;893831824;1584211651;1049330353;1076449730;1873952312;313572470;297326700;206829453;1971766838;1831101774;189915895;378364543;23261312;1985391666;109083485;1643144069;1433430821;1555868443;1213817716;1153001325;275689715;2023243093;1479481215;729612543;1412111546;1042919804;1757016141;245038965;1651809455;176717084;594081840;217365802;66526909;1382566775;1785143220;1877825082;1369654307;855704185;1522697064;1879679114;849704059;2055371998;1839192064;2039572176;1791882314;368376662;1203164040;1488205685;880279456;886509979;1245886508;1896547618;144891995;1992738520;612081538;1484518464;1363308846;1184508264;272581923;1092519039;268540755;1904255510;118493982;1424205692;2100910454;462733507;1325262224;6516911;1084373525;1143454328;859957713;150348658;1592478885;1219249956;1652248364;2018305436;1928698604;107692614;2909483], [3;5;5;11;11;17;23;41;89;881]);
(883, [279619044;1382232065;159868407;603100679;1428165949;1001446388;782766426;521860055;1718744530;666338097;1942475022;68242765;1340248280;2028994043;1990827126;492138210;830607487;1639094218;1984655314;3335676;685632625;2123265790;1234286491;868674934;1214712284;1715164854;1563748971;2147483646;16383], [1554351399;231201049;384056829;1861009181;169563113;706970707;1240069041;1906928754;448519972;1784984906;1014346752;1609668749;1413087297;937682871;1866460951;859522645;1947867479;1637357648;619629125;728947211;16450414;1183575341;6758097;541665043;1007239267;437352117;1117536452;976430958;1183861022;376337790;1778206941;1093052531;1475741381;1709538669;259911635;1134892411;377196453;1216012272;466193311;709686268;2038098320;298488073;221855898;245112289;2138369561;1120951841;425679580;919139414;1997754803;1310333667;1977887906;1473248308;1620916299;1062354555;659647592;1217541593;261988034;112265336;323635069;2102652328;554785149;1154887438;386147033;1544827213;1503810559;173367064;314348732;1531975925;674717620;1312733506;10907700;1457193134;1082865190;2096813601;11594827;1493909739;73927563;971955885;981973135;142564669], [3;3;3;19;43;127;883;3529]);
(885, [1320271470;1438274504;761708277;1227206268;1953260051;628929537;1375479863;1069575272;389286416;1795357326;1825527406;428017101;321176763;1747336597;1218321490;789434713;1824616237;797037942;576323629;311234562;1193019479;255030451;1231422813;1409367085;1408706506;100893836;229296313;2147483644;65535], [415508883;250519783;2051220267;1241873417;1622835687;1412943848;1502946280;1079776111;1928284460;121279305;1712120272;439981797;422357503;2036921740;1349231039;371157531;1916050806;113561847;1051844822;1516359955;1286312316;1991380036;1232816573;996456423;1966406152;1112686456;341519130;1808353485;165596410;827389768;761088;1600559301;1438121931;1330789934;154316133;352493427;750221538;206844938;1942777457;142431009;1360070698;687724498;2143102659;239878921;2136643934;323896948;2101368473;1708182374;1146246632;872489711;2000623234;2133642545;2098554222;1310050406;1426625761;1266274651;145171344;1493914440;108769851;1444630818;1060142786;1407568137;782538324;714582236;1650164312;757581570;1046311881;578940059;538805902;1061608420;535252973;1295453699;1165226139;97855083;1354991192;853623312;2114328289;2067689855;872170659;543217859;3], [3;5;53;137;157;443;1327]);
(887, [966628911;671181232;429678639;2144404617;1916346640;1059993773;943205728;1738273664;511880414;687282986;1919886208;900938376;1103523430;2037066638;1429848023;1703156184;621136365;583165354;260884004;1471978936;1203247138;975940341;1687454204;783418508;1925166526;223327925;786417215;1160622526;34], [1099559285;2061546661;1925997363;1648202333;975244037;597354907;842403798;1451154227;1900002712;246119897;1670953046;1244478540;166783682;714126483;1662515841;553722539;1579613558;1066466873;2061956170;2123388305;1986634393;1782299972;6738067;1819700889;593075238;252121729;1976932942;1983184736;1963838082;1692302357;989059994;46792026;1110902487;2093117941;739056400;443786411;86705096;1981480861;333272610;1956971431;1642375098;243672039;648253321;1054017186;795362343;735279745;552819738;129080194;2108701350;1552843432;1007114361;1364161085;841065580;373361894;704787443;1049807353;757998497;36016535;129076690;125854304;41452638;1438239659;1045310041;1043162615;1114697820;1372512638;101396164;362423161;553821034;1503372260;1788722795;1434490837;573072081;1157433046;1841356343;2096389088;1080117795;524670320;111181955;45101629], [3;887]);
(893, [898331535;793143679;939397196;1943942698;1422637408;668154570;384950087;900568365;250005454;1853493059;1012255649;1002802903;1219633646;1422642400;853102017;1539418144;762308193;1995865556;700423898;2098219613;600686758;1007991472;239663778;922911917;1460278791;2123402148;393930437;1030865999;16741701], [306001071;26536150;1250872263;992293403;862457830;1102567308;898370987;499451754;677714571;1365698115;968899404;1869119113;442062721;1592418339;1719972742;1042159418;518530275;1049160964;2125355695;8630057;328972589;162975700;900818335;1925081843;1960581316;1578780760;1881910870;1630195642;1399119052;709928898;116856303;822096403;1616238351;1957182465;1579712749;134184815;896264572;2027548519;726164442;284317158;678031419;821923338;679260183;308431287;1884162084;361714301;1552047242;1812837048;1237264039;1598962405;2017737174;1360833701;1456277671;273307614;1935315577;825843861;919231676;946453566;104544150;1770739274;1899756391;1305111933;905828631;1261766068;386994787;1786206397;68340966;204463837;1151391177;1699724655;5389482;477810495;803702278;532884255;387680207;222758809;842710609;178353199;860363326;255323866;18712945], [3;5]);
(895, [64147386;253270774;113976816;630992140;1120078545;407686311;1601124494;1453583555;444927155;973694622;2133994878;1858283452;762085233;95952413;832634136;739867432;351679156;2042825145;523514511;566079903;1117484082;1452185964;832388684;43029009;204891005;664554802;155844080;1384995688;2006598], [1022787817;867171100;1826313241;2052645008;390319431;42640882;144224507;1845630373;1944367972;1210807297;2124941681;980227095;668314833;1687607436;297136950;19928936;93694323;456877883;772529601;31736846;164911170;915965011;742440998;390412388;1719967951;582120363;2137898653;1615748712;1970740186;439372590;1969777837;521288;1870094040;496053018;31350094;1298620585;755149803;1295606112;824629605;639862848;489632362;527484020;565733456;1452714230;428184669;1094382577;2137800663;1385824708;2023398760;876503484;1010119283;1141261249;1447095087;1614549905;73579963;800935037;1160118121;1607146495;1551186279;121650325;472741611;2102369138;1387877240;1936575972;285601001;894301182;1323188893;23783505;236652689;1106469925;1445630752;725680785;1162190981;1661075379;409384690;605171758;1163900988;588481127;1438056119;1890913105;27475091], [3;3]);
(899, [961164637;976659163;1721741085;441403938;2042266475;743224634;1533201722;33457317;1966939911;1248492576;1896851844;438312951;924160700;498295454;527270861;1289322338;452232585;2054474585;1998468378;1222680724;1880957282;1291015869;1255033638;901970543;207315959;1821466780;1381779222;997552027;958853611], [518331027;293898245;1152454727;163464240;1907088528;1548851939;1730575203;300496840;1672520587;522515357;883788035;430733815;2009164148;413689483;750296467;1303459717;2099864266;1805509162;1321610015;1408184745;488912529;1515937507;1822743203;286142525;422335465;1501697963;1365275472;2106421037;1696773047;1236673875;1968192788;1903735553;1284335464;99497090;2122267578;1414628966;1817102085;1328423645;386203281;149769995;359841306;752777;864071461;1164598931;1118878865;979619249;37771974;1911117218;582057214;1779134542;1512136797;2134134833;1911989598;548707378;1277470166;915688489;1810299260;85563794;1711941846;628188381;1345223500;1399245118;1802713271;1374669590;4507929;351588805;386249537;66943283;2038998102;768042612;1991325754;1376191222;297608073;880398354;205843197;1772894140;367799444;784574310;823450570;1196902938;924876366;917], [3]);
(901, [1953766260;256558607;765203013;739657738;1818553901;522247446;1959601482;450838368;1798471152;1953757028;1449247157;895140589;1039840482;35760023;1980389228;541808119;2126621945;423729020;45126567;587550083;249379745;392732095;36344379;1941098653;86885938;2051590134;2147483324;2147483647;2147483647;1], [422835383;1049602249;102018026;862659899;57245737;1234976346;151340863;467188277;1525322369;280728259;1343011759;1272032745;754503365;883066401;1677234838;540249390;340154977;2076169806;737054564;1156642699;543915042;78307341;1357267595;134151467;1440242255;410681421;657552688;494718126;397371127;1475084304;1102467354;360306788;591292590;1920909843;1621327988;50616031;1334898672;1927654232;1743688122;228592293;453629927;1185724551;332821694;597401976;898455013;1895284666;416678705;1254065957;2068670739;1370953354;846966122;329389804;1553785338;1585671394;244690961;303718684;343483925;1578343635;2114666389;1545863930;158391928;1769328530;1726259169;600707895;1658931082;1434508431;792257589;1438636778;1130584358;636017253;100675380;728800992;233261299;669439937;255393588;1904093619;203105128;1160006997;917380501;229584224;918357724;50340], [3;3;3;5;5;5;11;13;19;31;37;61;101;151;181;1801;8101]);
(907, [470539631;1816343012;450724548;1060966853;1131096257;819644518;437128309;1505445012;87658600;1880001433;1019317909;928549793;491117928;1638856262;1953337492;960129109;558012649;876311401;871674096;740252233;86720010;1489212656;180404639;1842286647;2057553864;193191994;283440496;822815156;2142773766;127], [1430377939;1496215668;1508637719;1050373937;1211249171;363051647;1250706213;1879516848;715089025;22126863;2090646371;434124812;1050780129;628845153;1900462217;2085687678;1320707011;679178830;1504760171;1196108120;262161750;235802309;2069202470;202140969;76918701;677061630;662193934;91432204;1894930933;438742941;1320652286;2125355469;217901732;889911257;645245360;988933817;1123660017;512368333;2059768183;1913620716;2105845133;1428544408;852259384;2120716144;1334216097;1345162407;925545773;1731026066;1368883066;471236739;1640112088;412667084;996528850;537691033;2100535189;1465999744;1042441438;1613788425;292133245;1695684366;1731058574;885195690;465167174;2100420300;1792010014;1162916469;803308795;43186706;2009898847;398330146;1855218878;407964796;1596958009;99835938;1409189028;657994059;88069255;1668975473;1092446796;690663036;113286155;1627432197;2], [3;3;907]);
(911, [82674083;1792571640;2090228224;1149528983;2032242510;2078050480;519922261;835403681;1809241387;177450852;592962016;754144815;1804230980;477688803;634991781;1227570699;2141072741;2061291375;1117023342;1510712530;173867177;45063126;63624393;1013107026;591181321;872295737;1066247347;2005211306;4780], [1885884651;120546710;261033943;1810959447;1059143278;1288680371;16592192;1623737434;1656897562;1487877316;2017315852;879248049;678736373;521723067;1789021843;1126307402;1798812691;9039026;1958072010;1391372391;1232590021;970656332;1334625363;1095329008;1281090527;1061878870;687812922;1382192762;1392737049;948176650;1998169413;732643872;1205140123;1615092477;123393560;1118293854;1273373001;2068569809;1260206051;1641301959;1514577469;473272388;392579695;1118103966;729539305;2124526054;1311899892;1144409640;1054672459;1020573868;4303983;1473864559;368691918;55688442;1551245453;1921573315;699850754;1110083359;963947980;716967351;1523284139;1380242391;352875550;264796758;1938245494;1519926457;1201835016;773331047;1367474323;1530746143;503355321;514882472;2066901502;1605847340;1126696824;846955170;1068155735;445971098;157881295;567068904;1910950237;15457], [3;11;71;131;911]);
(913, [1828753398;236246047;1039748233;1965041602;610173717;216204982;2098068350;64445305;547095284;1838195072;129936324;91326901;1326002888;812734559;1937861745;1316321148;40688683;888987075;607361863;419824044;1201817019;595515077;1502810027;1479680675;1948293063;86689491;1844618364;1133342520;3627], [588276421;2071698051;1243133943;1858508373;2140162605;998923463;986437021;331951013;2080110607;574007512;684129248;729803133;1891629869;2052703584;548435260;1425697547;1545268679;657695855;1358844648;857434934;1239349723;1440278004;1995312256;798478450;966474283;1412189565;2070109020;70817705;1261625964;512392411;401145423;855400468;1813551510;1452412060;1321658822;264008314;897706487;1181703728;445758364;1452030405;5525160;412439667;1521036277;139357818;1087459268;415650321;1593458067;1992599266;118318255;650770499;778257347;529464014;1443010824;1757735299;88461245;1048930699;1911116818;633030867;2116585305;1385784213;4679002;1615115693;1171913278;474016643;884828384;1915025535;141899326;2027086520;642332674;807150218;1338216756;964054439;712773740;211565248;730239630;1307417509;1577436983;503608644;11928654;1234924399;61688807;143676], [3;3;5;13;17;229;457]);
(919, [719926629;1530559932;1874715118;420507308;887347613;389323573;1043450718;1703396304;858994496;1040006209;977792053;802128005;350704458;533300627;790350778;2013059705;2066037580;1051914964;1674237922;1727436808;2103107655;621347421;1996125447;1217308049;1597475220;1466669187;2013412664;406756198;2147478425;524287], [1286230537;2061388647;450879502;1321898953;1768754919;923541090;2131954701;1948225959;1015519709;1537162062;193469897;1605245850;1360952287;1205859234;1595246298;1843379774;308313989;1161798961;1900160259;233055430;2085424432;1095648259;951892724;520772838;2042566661;942516143;1185158528;752555493;549512670;804050354;1840073773;1299143534;1780394160;1948535547;1959081338;696441443;1570188665;992309526;572039141;643999621;1412463801;415600199;1017976077;1201980294;1151558595;1306754836;1334038070;867912183;965638138;1099023572;1116744600;1342669800;5371175;2035743774;1944699438;1691865309;386681763;314741515;797001345;2067287105;272065756;1192982369;1259649142;733160249;1670325099;618838353;208455337;1223525843;1588052135;1289034333;1097610965;19069094;601970245;231620981;1369619393;921579971;1380323986;1155906049;1523504974;655786640;1911355238;1197670437;1665379193;17], [3;3;3;3;19;103;307;919]);
(923, [954234212;1545399621;1502861912;1075182368;741295896;169264659;1457682061;79577015;514440975;1271178071;1627610474;1193425758;1706475267;1287435563;1486529844;504264713;869674533;129944916;1798279544;201023498;2028991100;998486724;1883896372;398248009;562112080;1617287696;42023198;1844299704;2129167993;303], [1620243629;754105885;1421937084;211250746;436731955;100919761;771298334;2099159383;2093758545;807584256;2033329843;787472214;1421265066;302742143;1310944642;466490921;889424827;972394289;298333620;1877251329;750870981;326813343;1857340492;996578779;1423979128;13012818;1221947062;1889156689;933976103;1466219165;63349574;1544843439;887798955;1428207038;1317170547;1556238086;571453426;881213011;1867394159;476379596;1537800532;1366874521;166160853;154849400;453129870;675431192;981102895;560806937;719912640;482850901;1031809966;2098944714;1734383566;702153805;1866403450;380985162;388010721;1619852422;1389524887;2142442614;1462967492;1566982774;1635251050;516611267;1165043318;1121607200;969129312;340384330;318908718;1146752342;368071761;1826315287;1350339054;1520651235;1643536063;1302481403;2024534863;687664210;2130219899;385833645;2074687620;1293765960;1173872245;1], [3;2767]);
(929, [1388325656;953991148;163345974;2133703306;674325792;215721236;841799807;648586019;1933239878;1494195708;371543477;650476406;607444555;1003080459;995765637;893157199;832176320;811899387;2002471164;369623450;2047889421;1373571593;919745864;1495103613;1656239980;928820339;867602923;1164667989;34858946], [2001620077;1430210769;1288161870;418938679;873713810;915526477;221940949;2007875010;1358492181;821330296;1169679750;478864416;1190362796;558259176;675954256;2067020556;1689557226;1498148079;1975118534;954356458;1068555080;1024462612;379130952;735950481;1161114141;693203901;91630194;139083020;1560024085;2095185145;1345006417;491203427;490668493;986828387;121249741;1016654928;1664257561;76402699;377855387;1509812003;489278200;90576957;1688952149;873926087;733150708;24467756;33260095;2060885278;1053647621;1012446786;873206167;1702146734;2016431882;889304323;407064991;130123702;839101702;316797338;836890831;672558864;1236101691;227713428;1593182010;249511835;2068217306;1898114041;2010385763;53999167;1732829873;987658901;697973317;1895638807;539972131;1039960582;490158197;821064862;829868810;1229016814;165289021;1959970780;190436191;1685962931;326021824], [3;5;17;59;233;929]);
(933, [535024221;1083445750;1046557290;1674761027;633299901;1062112805;1406943821;1796873845;263498385;1884123613;1191634170;1824325631;521713313;2087855286;461478388;1520560143;1394623472;1304729211;1152665901;1490904489;1231796464;1015673165;1835477097;2067887788;1014397522;882544539;1617947875;389051880;2091302;2147032864;3], [2066169981;945425591;964055118;1801259328;33139432;1160127992;100886911;1734963265;1384566309;921902262;763427414;254623037;1290292810;2130494512;1995037110;396567395;360212971;1742853340;763434091;1779167240;1124318364;2003617758;1089521304;1570449191;1104697969;2028914433;1416470253;1917547006;1717300331;1521772871;1820050597;503810366;1109453357;291763014;1550329606;991098601;1376145179;661750031;993069476;1491327805;301917551;335122820;1656538994;93878447;372922570;768080149;1010833685;1580608795;1816471298;581546006;534105514;1731231902;467128743;1708808022;1343277855;975763471;865042710;2032887757;401834206;1783931128;1776450029;404301406;1784378438;453150845;263444364;1083954176;1375475627;1692972271;599546784;810928564;302319040;1359421497;2063553823;1318103736;1028204036;696817257;1486984871;1094285652;1726266662;1302300415;82364041;2023593095;652293891;1297627667;5613], [3;5;467]);
(937, [299870995;918878338;57541348;174314956;1458884101;1792958322;1227001930;1075414222;1471438985;1943561889;753786817;1638498821;21077363;1722859112;1203630741;1915221559;1138058032;74807627;1468451361;1775601268;259265666;524215129;581754905;379072790;33752481;1451016876;1628350416;2147029934;2147483647;2147483647;63], [319961143;647438211;1270256988;600955031;362045020;987914820;1266674910;56790107;226190869;94652787;1992566694;1510733364;896831609;1129422714;673177875;263886387;1336356873;472725934;2119458992;111971832;81761055;2141079139;133632844;98387429;853346108;992140403;1584149242;2121187335;566716535;915163615;948386127;895742769;801165637;678195770;1499327671;2089285749;488391655;1080924987;1537864572;1684777464;794773408;1119954653;916223486;374978074;95673452;1742361783;446573760;2007005520;1408942697;2066670029;543737401;606415032;1825945645;1340760602;1815261430;1492173799;882336370;2033007360;1577373919;2045822579;30503870;1332768957;1435543232;342343328;107464376;620773005;6100429;585692556;386610761;542642053;864173088;757083563;1993539163;1886806977;376776748;1889570983;1606211228;695426314;1192324629;1663251194;1640107188;1160553873;809628325;360448262;13478971], [3;3;3;5;13;13;19;37;53;73;79;157;313;937;1873]);
(941, [1013046248;1199134590;339658007;987010072;1037975691;851155608;1016563076;663378787;31133189;813657377;1292123572;1095674269;1487968865;1801635835;389121422;2092523427;113703826;1785477;1880561456;291917869;1292987866;1484033709;1577288377;1091627836;432549642;169104697;410412554;886218239;1576811757;2147483537;1023], [920429813;49674911;1409619121;272991105;190600371;578257869;1964870741;444550226;1098793584;634615849;1243943260;1497805691;1330977687;38400957;908174631;500043764;1545236746;1462808513;546857932;35565878;69139115;1395257705;457191293;26646258;1140639809;581662812;1187667886;383707036;1967443264;1405367108;2146669688;1648926903;832090164;2075203504;1970463609;1195243247;2082524894;1063775440;2067996767;1515790708;1176581387;572167704;352005310;928172946;627692168;605828362;474390754;1449208500;1153488640;243092719;961553986;104146964;1816339926;1999808645;293060217;1432261164;1830273018;917167042;507079167;1490975802;551875364;2099998196;834014914;770896544;1067954393;1466137639;1463536472;1458266845;745726130;348209285;829675307;966345724;1109343488;1574372905;32663491;1392871413;256646131;1144875408;1424113877;1780498433;1549055940;1574795186;952917351;810441354;150755052;15], [3;5;5;11;941;3761]);
(943, [892522831;329637228;1681845659;870968600;740397248;1888721448;1384893179;1836776789;1292261946;485024569;1338497343;106925375;462124825;314974004;1697662535;1708832355;835088679;1010292976;567102042;1205772475;537318067;70419539;1664646342;2040888087;1921633134;819345532;816593052;1149909769;948935640;1173731660;3903], [1278522457;1024731769;482727511;483157416;339975167;1901563873;648957925;684168676;359847081;584327767;2112359403;572210398;1752980718;1047806301;1097054115;1426811801;733466829;1715102417;1189695292;1931141093;1637811661;709238508;1242325689;1097148444;1903553814;35461747;768667237;429746993;167918076;246152652;1668273724;884352684;1741081226;1594389134;1641047626;635279141;2069227121;1980317986;876894185;701359592;1589800604;1535610879;1007882633;1254711170;322377407;647366063;1174124094;1102258506;261925972;1431903906;894719057;404259140;568961297;440633331;1869569627;1761979496;601339030;392569797;1533584208;369563261;1667674893;1928799912;1123290215;604676372;1865126298;1358310702;570117549;1905619523;1443947345;1634841995;1951587373;112007574;1586151965;1747961287;506124657;1906701030;858896373;294304915;1478555054;1633614117;1487003942;556308205;533087719;644277044;1597135218;703], [3;3]);
(947, [1864790305;398995153;1455120748;1186523905;1306720840;148758235;758617429;1831067258;2124383862;1630045525;1798435496;386276326;1458160058;1513064107;481707508;577356188;649822034;2011618664;356757503;1161250319;1685549352;2041058106;2118027598;1490711919;102303498;108615464;1486590178;1800433172;700352096;1480938821;65535], [307541135;2082241953;367919585;1718320391;508173300;2133819650;933278496;1810256302;2008055782;143332092;1401073547;721080601;73803849;2026467893;230562545;2017038589;2109148809;1906719750;1282978555;171377163;646806717;51417824;1474862500;1128364548;1426971562;1553622138;146277245;1187648076;608816317;448415433;1118407637;1981999625;1787282199;872006722;295867726;1003671595;1535554427;2122543592;2119816874;430673645;1116777576;875805377;1564400485;111049943;1410308798;1639210749;462738144;1586184915;1507315615;977010330;727568428;514437361;179133979;108053849;1892244119;1855504269;39519180;271069035;1686474542;1219857738;583505802;132065128;1221695655;218279938;782749944;1379999516;1285032886;1166292717;86055708;1713795247;109103990;1187685953;1473901054;1988633408;1257853163;1092622761;623193635;1891706614;1284784311;751928662;718190426;1812576106;1148161884;1416620911;1408720117;1772985], [3;23;947]);
(949, [1925248449;164881752;1835563853;710451657;41876746;2081904306;1480540310;1449051294;1498010306;1523280499;552638710;448312448;1237499681;278968563;1397918574;871616243;876998015;1576626964;1288949652;1611530325;1116835505;612731967;568787640;1649044148;1858053973;979373630;973506543;1356856394;1471525583;743682], [41152395;336097091;716340602;665806660;443633812;353005878;1182805640;672292121;1768875053;533689594;1107896881;2005408914;272348750;1504068671;1606521752;2010201960;607206680;1724238696;810104508;1783082577;2092428609;1999810655;522659202;2029847315;1452898509;978787432;736755652;525472521;1262871108;987986035;185060431;1008353830;1826531796;75128685;1027650627;1063000205;1192082339;983634395;335086445;1344819349;326915723;1692502769;55069918;1185813219;1610151164;798234405;266763056;1613662356;1556252344;168532166;773119031;89313478;1162555320;2008166898;784262283;1341309692;410553373;663301445;1174840597;1093866590;1203826308;468762992;164791820;1581123287;2060873387;1339677152;1242495599;1543347029;1733243266;324141939;2043257946;796996758;1961491713;1514308431;1884332713;420348251;1747910542;1712610996;1622601538;117787555;1352028523;1873225069;1254395705;507542019;246462646], [3;3;5;13;317;1423]);
(951, [1318398685;1596483653;1086522831;203335028;1443048397;373886157;1916464115;507490138;55835424;444644276;467039640;1375688780;2107865398;574725763;65678019;1510393045;988765628;900233225;610350228;281829023;426374736;1135765667;1297944106;1663886794;1197710307;446624952;1124517341;1580999114;1239367116;2046301762;1048530], [1910467279;1733331060;686728775;858483231;330778386;1737748000;1147934849;2060043944;14570289;1757187703;923194575;1475915058;762031168;1434349412;1821483304;1869876165;864629316;1294789609;898445405;53189695;1806544441;239202328;1016177705;1435938566;354748863;1695402671;1068495382;1023844900;510033953;881456982;33178240;1035306780;148849344;1752946520;162857213;482240098;986134711;1625622761;1412127137;498452498;1669551587;1892438370;1534753258;2064986744;775415217;743162792;1096857582;1531408057;1984121622;1325431217;632324888;848537367;1040744601;810467552;635610894;1827931007;1036656413;2010999497;2028851060;1771345938;1503876231;1887271935;344734827;1908009365;649146761;985783986;1532829704;1795349333;173141053;46419145;910383977;14878170;907938421;743248144;1924933903;695242394;280913298;791806466;593947086;733420811;73274940;1452332972;1213963028;411858291;462043154;2109292193;1], [3;11;191]);
(953, [2135344304;940638582;861051279;1022663479;978026293;939015681;619939199;780852789;287417130;1553514128;592378420;361214504;1562447300;2108765116;2137385386;771801995;108100827;1461296194;1641944247;409270322;587294136;660806765;234226819;1861699374;1668706523;147366518;275476445;892772946;367470935;2147483647;4194303], [1440595625;419830289;433585432;544359600;1552517227;1501441613;547478522;682102829;558054133;387987728;1376877618;2104696892;1609744560;524530673;41076519;1251521372;1656740633;897073811;685454554;732456677;1755011370;1551933729;21534344;659634761;1045902699;1021780148;1925076755;986346897;836477214;1969213852;515691423;1977924152;2036164250;131640194;1682055148;690005017;688841611;982620129;1341730120;142611168;1097572793;1659850659;904436586;507728250;2142146779;1253992796;1901361736;1447754102;928722921;1388494075;1222236527;1266910477;1608740417;1193494418;374474244;920624735;460044364;1266955057;948286669;1860152279;980991968;1135215372;1812899862;267739671;1502265403;1308467902;2113088913;1600335546;1908355091;1479981626;367988363;1431968792;2081704129;1127510909;1422839353;1981498428;1764379010;526597642;953980422;2105947708;466260861;1477985847;1046707944;1981426058;1980477541;285063489;97], [3;5;29;113;137;239;953;2381]);
(957, [1263078428;1573677199;908135441;1093874410;1682878484;419313919;1607536726;1019529125;1786993411;619957188;713130646;1186634970;1938021301;469820524;746131133;234764331;1517656195;1115050542;1190142695;135267244;1500422938;1405948788;1192564629;669627251;1302446203;1743922786;1462438830;2139318871;2049508264;2104046716;67108863], [586922377;1743799700;1622593860;1781630564;859646776;823578065;2088078397;1976362026;987745836;2103962377;34317808;1700913735;2040392144;1332793970;769229856;413404400;5799858;8892526;585916162;1148780571;1047027223;2126652023;1463403923;1354909184;235668915;590818851;2123167033;583491203;1529164598;130681505;634874512;2128300771;1631000908;1874977574;891705504;464710570;119119338;1995602592;419634248;1151046920;1380744487;2102696060;102615098;326350024;1293385424;1861252589;1122019239;27070271;324736086;1718525597;1000457161;537594260;1463515559;1578340088;167658881;2114781618;1879806168;1521138707;509497520;1726982407;479405991;666256677;1323875030;2142073370;396580286;872278182;523241503;1183098653;556890236;832395129;1949682354;708582135;1068461620;1978040596;1516104142;752090227;630868543;65371609;1441099902;25210978;2014483663;1719258214;119989950;181621645;2049173126;1537488287;233215], [3;5;479;1913]);
(965, [61649943;1014132137;578591329;901376828;202824412;1048778785;978958357;1852198378;587350847;179799731;1977606955;79332906;1714018005;133986592;685657590;866129883;1448626087;2094306688;767756432;648341255;681921959;1016985164;1043364893;336832836;1703363693;541598008;85049455;854921275;1862342037;1975451683;332496856], [1911120495;1454107940;378078679;194814887;120242613;926702694;422257287;1289179086;914695908;1298481896;1563271393;2050206791;802463428;2115318418;452473046;285203619;1643197215;643058336;1670146629;1081548255;438583542;1316958104;2080180578;19734724;1493509041;217983382;1860400700;1256762084;1308446407;1487859331;1452403041;1812345445;1400142750;1832329201;1027872167;1108134984;479529560;1926864928;384616990;179258494;1823525348;1786847809;1539358879;840391529;1067480279;1962063884;999935161;789467158;2026711224;1311988664;1927523295;1168088704;1945645681;916807952;493905307;1518850381;1542360486;216779992;2069528276;1821643839;2065171016;1707548281;589374226;1425989826;962409166;1666750012;264366965;91679972;1256469328;1074369420;1381867674;1922709467;1327274858;976094931;573551791;1363819302;934108446;532118249;1753576291;2135494768;1927934191;1903033842;549380805;1842712163;743456929;481207606;250347988;12], [3;5]);
(967, [2047666493;479178737;1820407596;1034737235;1152170793;1751286879;1604422261;296834472;1902677549;1229970020;1599438383;1512090110;1069874835;736702382;551976143;1501770976;1202717400;170502643;1694247676;176628498;402872012;1367105019;1249784165;926543193;2052117409;1662945439;1869940507;711576764;115349779;2147056515;2147483647;31], [1827619745;1244214868;309515970;1410566214;1864135209;1318162755;2074593298;1864550053;997857553;1378842039;1082006791;1628700663;1236891566;1002387073;1345590214;840994999;277369950;1448582567;803532992;60761172;1078304964;1461635354;32984390;2078010541;214067491;1312350008;350275505;1532272554;1836859511;1949858266;1692178683;1818626794;1896888160;573611444;1375753770;131894124;1889364389;644077346;1033886205;1744416834;1516177711;1254097923;1059060382;1531614998;200723988;375280771;2120548773;1831728379;1787306867;777174610;978274076;1200901395;587227513;899063785;385335212;767280578;1700265858;562081969;408147551;783375867;2043537344;1040112469;1957624758;1574241857;121097779;24118061;833155915;650616932;416668734;805188719;2013301883;940341810;2084687357;247058364;206912427;1830729435;229077897;317939623;424369582;743926872;894376867;1755593118;212854870;267210986;734839396;468197521;1459067151;30676], [3;3;43;47;139;967;1289]);
(971, [1830151911;351068712;664935727;291597594;1369930827;313407708;180853818;349048809;1891091266;591688166;742364108;1538627976;474987648;909002381;1945796776;1332548508;1306319530;507758554;40342917;635694737;575989094;1157140375;1098363833;1663507582;1152036807;801526709;1774533527;1225220059;1823972762;1111789449;6412768], [94759067;1233883219;1314262674;1966142068;1666145093;2055969504;461980786;1878267128;1713280705;1987564854;1923410717;150111070;123248154;379771283;1053277834;2004025171;843539902;1870973630;2142738520;1135171211;1254510235;906449223;1899893985;1277551698;1360362139;1629271347;1117371025;1716870376;1223942820;227615252;766065071;1280389326;1013128453;418391489;169361856;503788348;1942147297;160358561;431635619;611424400;128036840;919268287;38550345;469015050;2023505799;1889472547;1911243110;1013353564;798627292;1688472222;1969772889;1275998055;1744191384;804607730;1340293552;1384196179;1253395266;151836364;409371687;240399611;1630382325;769854343;1255095310;1452959529;1781027649;1551388643;1957285818;1996540893;1219638660;704512889;1888299086;1799146842;2090591615;161317077;1445268991;1474044141;1665489814;62873393;1717556081;698563100;901055268;300191555;1323012518;1708127688;243613655;758792876;1250195174;429], [3;11;971]);
(977, [135875774;487060179;1370596276;978331015;1157997550;829009286;941335755;1240979862;577901568;1363100265;1478419223;1257000231;354428069;1018420845;2078649644;1526594910;442683735;184109584;1135461200;193690201;1260232571;1388928035;1636236261;427128555;244811253;1158500447;1937931926;1676117964;2005448878;749955790;2061154297;32767], [754252847;57231166;1837478129;1585620118;2026745031;1905106347;1802787146;561484056;807643326;1920811997;1581948488;270386950;461559756;735512102;1730629534;612526956;775575754;540857510;1399029000;741035896;1238426686;1593208051;1537111968;733164191;1890673566;166218528;1906081225;1307629807;1534887813;92153680;1833140782;1400455676;230827154;848481759;964540982;1599034423;2004355623;2024304364;1060354355;1373893741;885234539;337756762;1595929617;616438957;1613961493;372890980;1939189634;580920453;1173671858;95298600;965570073;127067291;100021207;195781879;1100246361;543268396;419741484;679051987;661039990;1210346012;208182303;1450609508;736458347;1599429862;912423685;1484609846;214983807;690737034;821310813;2134335275;321896722;1292820848;958423725;2092513305;1597350359;1383644637;1015136557;562750278;486853363;1465746277;257480125;1463993642;1664068422;505101026;157260190;1784618542;1448814371;295510273;4035], [3;5;17;977]);
(983, [791062125;1704783447;896809288;1615469416;30605285;1848533260;830889615;1184113376;931820163;1414329275;2080325666;97201594;533571900;1798726795;660223209;2127297854;1395768314;2123275834;1917560506;169178373;1699388227;2137365351;470636396;1279780060;711600699;1869467794;867051344;530066850;930372570;1493565293;2124112536;2096971], [1405982133;631040831;2046761872;1149118122;1106826658;335417385;629388159;140326618;1014605965;741016140;2040251329;1834604753;539751610;1944794886;2052428119;1561162778;518601170;1926795092;1693210186;1556526589;1300051866;1917934667;1870005849;1811249092;309877534;2092133671;2008383190;425498571;45460181;1386137717;859070809;1301649749;987139956;1630823988;1276432065;1460321506;1612931361;1072604081;1810894393;998553745;1506545739;442137047;1220156041;48913920;784310770;1086716597;1514946672;2046265352;1640870619;700110734;202007219;1531793031;689129155;935613525;2083301349;2137915417;1481303864;2100911300;1786535410;1722548291;1882381632;1308847980;650349066;409468121;361623738;561776833;535999006;788010571;611186241;1560100801;2051950215;1926496268;1114716866;953738450;1135294578;1585666543;266051956;1805432464;1161883988;1021259772;2055040841;376542580;403287949;1855383892;922322928;1220504637;622111684;1944506054;474689737], [3;983]);
(985, [212586931;1824004263;947964294;195476766;454232944;1114120113;2093030194;1302190466;2089222302;382257537;110029541;1317337133;620249807;801874530;32365341;1734340286;195557971;1483248425;1532435026;2079250905;78636533;359453913;1499013131;581117399;935397149;1374923471;2012654696;2020219226;762080212;956779624;2093308974;8388607], [1122357955;1962237080;649512787;1802971481;1490839111;2101385441;1844208432;825238199;434990870;1852689777;1865232462;1775764901;1980918916;1515310627;176465284;1112668437;457401103;2050501885;4114187;1733533466;754539559;408681517;290047724;284708294;1501805718;190261262;842274483;1389026212;184361039;226620090;2058275201;1618288405;1668335146;1510702027;452586126;1973244866;1042030335;1046383810;770583902;55355086;560663912;189591118;1347833563;989876980;86548710;1829839405;816585162;964861558;1418399558;1272996067;1935991494;641160124;1253652529;608453626;2071263081;569625089;14703935;747250035;96181908;693599633;760884706;2064219668;1813818637;55833684;978096784;1622837927;21422707;1229705538;1252204742;402288850;1844272049;1415748934;979042224;1036217431;978062403;1329885830;437173785;1832767268;6695772;940092813;1480783911;278863257;852594137;1051059945;2117521764;1938874456;950153946;1955347477;1786957303;10], [3;3;5;13;83;2953]);
(989, [1354541045;471904750;1830533049;1762489956;188260987;1947689627;1323370279;1366156842;1842910989;1041244411;681862718;317780684;937047193;2051263557;1343061518;1426101267;851092887;1053770408;1396886540;1632839900;521690480;678272356;301200972;344436137;1625140800;1638644091;215893130;694719620;417098298;898927002;578347817;92], [791266159;242937433;1461121282;1734256427;978613364;125923761;336388459;1249329946;532535388;2107334980;88752844;277432168;1527663994;450937473;1822736711;827860077;196699867;236762214;91850460;2049908391;739097731;1224508933;1251675156;2073278679;1789923749;766758305;106266242;513141030;1356417038;1526115547;742194852;1840731166;1642597060;367089552;389310825;842794638;706690815;1747093625;1351348758;1368956920;1498875050;421494733;163664108;319927425;2144885199;1346033854;900498582;1681839320;1017144095;707283644;1342153428;165293742;2100641524;1141065377;1530733946;1183153649;1231122894;613847296;1658476931;2111760398;787830351;361669846;2108430783;128545795;1184713323;1657174444;1372028194;1255972618;1092742965;1351189783;969916678;1157381167;1326172388;145333542;639584226;996850767;1401922682;1637391292;511284321;442345613;844319653;2059340083;611716779;306332771;2144789892;357464227;753439752;336111823;38395716], [3;5;53;157]);
(991, [609605841;1163123919;2115195244;667626867;771659374;1436766006;667592177;1241462050;715643063;483332585;1763152781;1223776521;1565817414;550828651;1985064152;332518222;971281540;1486436154;1438329864;1204559693;677412811;852835816;745697572;2102920771;1958458985;1139477233;359828270;1081329601;521038823;570293], [1037484275;2126819145;988015020;498501578;621856063;1961209219;2135093015;640594359;757156587;848168013;138915433;1008712298;158527896;725988226;126040774;1386519299;1244921267;1188609037;1511862270;1288962947;1658090491;334072917;1602510872;231029603;1601657930;1999937447;1022404422;1693529818;1727360720;338982814;2084285481;735381811;32478172;1982486622;1708425813;1450429331;920170105;1303627863;638834123;316520119;1064563632;224348423;1632034102;1814223467;1714078932;2002216011;1061838766;867280026;1044405110;365505789;617560031;1125473966;35915773;1819259993;497723498;1294435365;1322534586;1929171105;1872434914;919419669;1441645269;1739038088;464923391;1097793697;334381109;1122063699;1668423189;1996366240;1499884363;1624142470;1136974797;1174379797;2072432232;795595245;1950266019;120447022;301251487;484176535;1605118160;1726940589;1772452002;959232685;1977822157;524908385;593369317;291549723;1553439973;1353], [3;3;3;11;11;19;23;31;67;199;331;991;2971]);
(995, [789812528;642559592;1705260203;685881159;350569406;884954312;885558081;1348248089;1727477452;72758685;1734744789;781591489;722639915;493188305;1398784503;246155973;582863310;823489444;1358707046;199501716;1650362531;692827470;469157129;1892773472;940728642;914033619;1903503529;1291481647;1229750974;597191398;867621155;947091580;3], [1123489539;1460138754;1587567637;1203651470;747574853;2129400459;1554929278;583080502;751904724;1223682188;1576974006;301671191;968451281;452831634;150986940;518423743;1846789679;1727115731;2050107974;1260637331;715524457;457204841;107248581;950132540;425382102;1835213375;585181355;400382457;914251535;277133270;2066140209;1027022120;1064268488;801549552;1346570889;920750669;1795227555;823625992;422821817;177213769;590061707;1400687307;1703201646;1235827105;1029265319;1024186340;183945484;1369671037;1273185977;369632989;360126283;1225869757;1647621491;767390561;1889149663;1861157386;752911985;1136265948;2045133874;1881073759;742856365;1998750459;226852361;1431470701;382806664;965126326;433419096;125367288;1355243295;1169099164;1117466790;1506219524;1922526885;1372004354;1091809051;33335940;344793949;30728607;1405968204;19881457;1451863094;676990965;1402307623;791555139;51302244;235248671;1680573480;1451636228;1358987804;484731796;1], [3]);
(997, [1405671237;2110013935;1441361026;1382951943;1078829237;1745921232;1946303088;2044596365;1957912087;1994398325;1654002319;1926081473;473354524;2138055588;1991229757;1300221664;101581784;858819347;945892883;1570460447;754505317;947630748;1608587956;1431721531;1344500325;3782157;1277820239;324921106;13368585;1257420716;582389931], [1309075233;1803663573;1287233646;101939394;1128109236;1950739808;1254668961;543252269;1228612253;1134107187;1354594680;1197035769;1728392623;1714906941;268671695;719978238;2084030838;1627390054;1433242643;1803869800;1369036072;362466334;1367004321;1289707112;1269146772;398939242;1521567179;337828470;1947306494;1773682368;1254156625;1583694733;1567365671;2029121882;478265183;529052426;226899864;353051628;893156279;2103994113;634618514;1426117067;2040860456;953238239;1805735221;1385389534;1633266057;331737462;296888924;1846000826;2069380467;202966031;2819541;5620778;656113186;687469782;449307667;2018258341;1115736705;813716376;1117062912;434825840;458752712;1255574722;870814686;328554462;994181698;1977922472;680791919;1088179294;1975563405;937426323;1671592203;662578050;836060617;433400752;1985807468;499511855;951734777;554968272;1690022846;1964671407;25178243;212506299;1919173247;1614461946;1096077023;76301493;393804010;1], [3;3;5;13;167;499;997]);
(1003, [941743120;631205291;900618553;1308462415;1684481835;138633453;101808235;510421239;2137842438;397768162;577692802;83018621;73780210;618547009;1888824207;1322712895;234644763;1575562750;495678819;721675403;819097916;460199658;145370530;711284767;713755916;888130502;702561958;695364126;236603839;1054245885;1441386480;1166016625;9], [1841086729;2043868662;278716928;286299143;1633238011;48323686;1315656763;2005084925;1972683987;1935571277;368173280;345410155;832248716;378042898;1173874322;1553577567;1330746889;211958379;74378456;1202826160;1840419400;1316901993;1163174713;947436923;407314811;1115175629;1985634638;1650463500;1649629685;551278263;399877589;426195483;1866682859;372767635;647604108;1757989048;1602909348;489358159;1707312981;1414101473;614840671;2108726171;563629508;727412004;1827478689;764137058;1190123026;823299665;1281779046;497003646;633476432;2129281310;1459798135;467376076;2125524524;219661352;1189356688;310087210;1060765153;1075297928;990790415;1242349842;794353565;1204444966;395713677;1038499962;1249795194;228767691;1535925730;8529709;339323197;650716740;1142410840;584584045;1051915184;597019639;1464573313;1019156430;14425287;165783410;2073692267;1008038547;918307938;171902542;1774807445;1892694825;404553942;116799026;1612978402;1349208179;76547], [3;3]);
(1007, [472899009;989687192;1650496552;1709501553;1009041648;28544869;131412648;540573625;1403252302;25318930;927066428;2016928660;378423761;913200573;2125586750;1468349485;655931764;1823650413;869537227;786078861;641736341;1019101375;868464383;1884756953;785727695;2075897494;1929951570;2086823756;264169152;1155975372;94940848;774919853;16159], [1074917555;746508705;629181176;119201364;1625017598;1044650301;383138756;1717293394;405575057;465112699;1038809225;2094945333;1519943913;1553160744;1586986973;396016451;160115369;596601599;552048329;1393482839;973594025;1949987779;54339625;2008591123;462925166;418486826;13913713;1797413734;154260809;1913553325;668189681;624260180;213550264;1075457386;2092753311;241639596;129124653;1027822226;1159766257;1006581564;1120890394;275514456;1187778099;1528947736;775539194;1751744505;1826013652;2141116612;516991962;331992954;759952249;784163619;452991855;1228398529;603628734;305013449;3584310;2050330481;217910592;1022636034;528829660;478266367;522029660;997046865;294623170;202009001;407506656;720287215;1371443329;1418582337;1822612855;1326649032;2122416043;1726236118;1079089080;1625606272;1904176595;303326463;598439389;51013484;1564088390;588155243;162160356;870777367;798689864;1542437388;229247462;1153139489;1349747664;263778075;123766207;9], [3]);
(1009, [1339051245;393157500;1692092650;1508523733;1414355343;860184742;1500841742;278406804;1381011903;1484662929;556866018;105956798;1161080449;64470914;1678628842;558758596;1387604969;198662352;193008749;1755604070;961610334;82333030;812213210;1847542227;658832215;1839039525;695790979;1887412924;673813775;2147483642;2147483647;2147483647;65535], [814995789;562576128;1118881294;1396381523;184968123;107494448;727524600;1759449397;2032140336;633206725;921131361;911829319;248710394;855564856;2136226752;1100073833;47036763;89236331;998376925;1703260445;336089781;484996728;692644237;155513932;17305326;23076297;1449912082;1903260828;28103886;1369963532;2099419272;897692555;1706076924;1498003777;157245669;916581832;2089683830;315758950;1687200740;534116409;387654121;1774089685;1864363200;2105065284;211432476;1438241837;166079304;1131502449;1848543702;1227656837;361998895;1297698718;1923380471;1617290156;780300453;1978085646;1038338686;907743417;1047550961;1114322506;645323940;934788273;123199712;714078435;1780119084;1813224997;2094490365;1216763026;1746967709;1644192682;414237672;273302929;1564636242;1384840507;307559702;205376566;1614244503;248657403;219426915;827316791;1793655157;144062048;242904685;327067476;611300413;75133736;1774653186;1162669214;853080129;1118076962;2134249706;449], [3;3;3;5;13;17;19;29;37;43;73;113;127;337;673;1009;2017;3361]);
(1013, [1129437213;1040996705;281597051;10332676;904889551;186739096;1851750128;1574181973;536009710;1221103996;1896601838;217234458;817694529;1323272166;472957315;61159802;1539012284;2069149440;479323851;953962096;1170036719;1986410107;1953037017;1319709743;2072255038;1587044575;168814515;120416385;486853048;226993692;1681022690;2431486], [2028929701;1249046543;1083767099;1452421248;2139160337;741425047;1858943333;1452934355;2076703051;1280752837;1610001917;65922695;1676310874;1181129594;2052010841;466225626;1388702945;190848633;194272522;998567975;1910004687;849641143;2051840268;1955752549;1027541693;416275058;160716615;596651727;443436436;717713615;1109810727;565782488;905489504;1630071381;365871652;781010584;1370845540;642902387;2110106092;2030253161;1133415215;1275010916;443958561;1596482901;1877889091;1315909449;138030681;632929608;438042627;1617489682;965324115;1201647831;2060941657;454084649;1691855323;53932426;1009380694;58994936;1185920227;1014492062;1524671067;1884408497;1852239656;795349455;1277685786;2112283596;1870311498;25151924;727325158;1782663439;1714268792;1375361325;640512634;1405953471;1888847140;492671114;1853669049;1200842718;1386751778;1650644707;697435849;1511499508;1821874561;1168034294;903506693;1476661287;1966267382;1467212669;1570987992;828418163;2505363], [3;5;23;23;47;1013]);
(1019, [169608890;386197895;1986829450;895033458;1511634216;116317146;1772954157;445081068;1157695133;1608953178;660390283;1697706966;1540894166;1831572180;750443260;203963487;1980365550;1856954420;1355808693;1396196653;1699476904;1811333797;534413942;1832903801;263805739;230647329;1883211173;892927519;130878571;1972771734;530216763;1903919064;67104622], [2119538833;653811173;2003654792;1486207730;271646242;1388262338;1458922976;1984420287;1214216043;79809361;2026784872;433690021;277223598;257034937;177723190;1289622117;1011130133;2111943388;880363645;1786473671;1645890116;996350741;1276140528;1081390730;955378063;40819953;1505827888;871011597;652875176;1187381140;1569673761;1465002668;1573621484;1195315472;2145028003;1711891102;1850197179;872318578;1097842591;388364877;1498021358;1127088125;1454315509;1192486848;344991145;420351788;89208646;1706761538;375035525;892256893;956963651;714505871;1278372094;1118632937;1584787045;198061883;434683051;1578261447;1450852313;2010120157;2119419153;1349154822;2033594331;239592874;703661593;870822316;426204876;516618408;1634902039;1354322359;1908714580;1021630398;955824172;1643575360;2048078301;232532315;2095121911;108393307;1341626250;1989856447;1302366359;746264906;632937831;892242433;356560451;430820959;579856929;1430866099;1497168279;1666688529;982837450;402552884;59], [3;1019]);
(1021, [967929013;2070547418;1159476133;1332887871;636334671;1546688796;743861409;1742630988;1310061018;1609940431;81738329;176108997;1910153922;1451756876;81643630;2019752617;1529987702;539966004;1509348916;1196541043;1319051605;101758988;1519576387;492188263;1505363281;1702313086;1532759450;122968718;571457904;357978670;207554680], [1989188895;1034548367;187136922;979984490;1129114963;180588152;1037829163;161663575;822050599;474901836;1136521931;84382235;957752103;1030577565;964868212;2120181667;1154994795;1912767400;253864063;79490351;237449854;1726367953;575966885;937010303;1468390183;439985254;1993350694;86475694;102872144;2135175747;1932221039;1232288931;1819052868;1463353508;210695552;1608363966;1558972565;1343329735;198493720;105419403;1000076794;1550245119;1466625100;1599024948;335074174;1777644625;1146323648;1068797212;2315590;962886619;191263258;1931233092;2081149059;854944896;1438346925;1073889640;1615075995;1061298075;166954819;815307144;1044930000;1424877659;999671293;1693505134;1910326221;643331003;1086551252;222091642;414805385;1467508617;111670880;720234911;1037799453;1378869624;2035200996;1186113335;1584927096;641772574;63317388;1397304208;457004562;1091281302;1795220614;1792424862;1687236376;1422431892;249924728;1979323375;438907909;1222124712;2242], [3;3;5;5;11;13;31;61;103;137;1021;2857])
].
Close Scope uint63_scope.
