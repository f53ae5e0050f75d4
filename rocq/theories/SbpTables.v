(** The literal operator tables of src/common/data/sbp_operators.hpp and the literal node coordinates and weights of
    src/common/sbp_fe.cpp, transcribed digit for digit (generated from the sources; exponents such as e-16 written out).  Simplification: a decimal literal
    denotes the exact rational, where the program holds the nearest double (relative difference at most 2^-53).
    Entries commented out in the source are not part of the tables. *)
From Coq Require Import QArith List.
Import ListNotations.
Local Open Scope Q_scope.

(** sbp_operators.hpp:8-8 *)
Definition p0Qx_seg : list Q :=
  [(-0.5); 0.5; (-0.5); 0.5].
(** sbp_operators.hpp:10-18 *)
Definition p1Qx_seg : list Q :=
  [(-0.5000000000000002); (-0.16666666666666657); 0.6666666666666667; 0.16666666666666657; 0.5000000000000002; (-0.6666666666666664); (-0.6666666666666667); 0.6666666666666664;
   0.0].
(** sbp_operators.hpp:20-35 *)
Definition p2Qx_seg : list Q :=
  [(-0.5); 0.08333333333333327; 0.6741808286457891; (-0.25751416197912297); (-0.08333333333333327); 0.5; 0.2575141619791231; (-0.6741808286457898);
   (-0.6741808286457891); (-0.2575141619791231); 0.0; 0.9316949906249126; 0.25751416197912297; 0.6741808286457898; (-0.9316949906249126); 0.0].
(** sbp_operators.hpp:37-61 *)
Definition p3Qx_seg : list Q :=
  [(-0.5000000000000002); (-0.0500000000000001); 0.6756502488724212; 0.14101641779424046; (-0.26666666666667205); 0.0500000000000001; 0.5000000000000002; (-0.14101641779424054);
   (-0.6756502488724213); 0.26666666666667255; (-0.6756502488724212); 0.14101641779424054; 0.0; (-0.415826313060808); 0.9504601441389896; (-0.14101641779424046);
   0.6756502488724213; 0.415826313060808; 0.0; (-0.9504601441389896); 0.26666666666667205; (-0.26666666666667255); (-0.9504601441389896); 0.9504601441389896;
   0.0].
(** sbp_operators.hpp:63-98 *)
Definition p4Qx_seg : list Q :=
  [(-0.5); 0.03333333333333333; 0.676094395754648; (-0.08999422094603349); (-0.26907915135368776); 0.14964564321174234; (-0.03333333333333333); 0.5;
   0.08999422094603403; (-0.6760943957546471); (-0.14964564321174223); 0.26907915135368754; (-0.676094395754648); (-0.08999422094603403); 0.0; 0.24735136431306004;
   0.9550538393084307; (-0.43631658692081304); 0.08999422094603349; 0.6760943957546471; (-0.24735136431306004); 0.0; 0.43631658692081254; (-0.9550538393084305);
   0.26907915135368776; 0.14964564321174223; (-0.9550538393084307); (-0.43631658692081254); 0.0; 0.9726456316638089; (-0.14964564321174234); (-0.26907915135368754);
   0.43631658692081304; 0.9550538393084305; (-0.9726456316638089); 0.0].
(** sbp_operators.hpp:102-110 *)
Definition p0Qx_tri : list Q :=
  [(-0.1666666666666664); 0.16666666666666685; 0.0000000000000002220446049250313; (-0.16666666666666685); 0.16666666666666624; (-0.00000000000000033306690738754696); (-0.16666666666666646); 0.16666666666666657;
   0.00000000000000016653345369377348].
(** sbp_operators.hpp:111-119 *)
Definition p0Qy_tri : list Q :=
  [(-0.16666666666666624); 0.00000000000000033306690738754696; 0.1666666666666668; (-0.16666666666666657); (-0.00000000000000016653345369377348); 0.16666666666666652; (-0.1666666666666668); (-0.0000000000000002914335439641036);
   0.1666666666666664].
(** sbp_operators.hpp:121-169 *)
Definition p1Qx_tri : list Q :=
  [(-0.08333333333333333); (-0.0054119803382487505); (-0.002705990169124325); 0.05882862617678911; (-0.05242606015162875); 0.0034166458385403485; 0.08163209197700576; 0.0054119803382487505;
   0.08333333333333333; 0.002705990169124348; (-0.05882862617678912); (-0.003416645838540351); 0.052426060151628706; (-0.08163209197700581); 0.002705990169124325; (-0.002705990169124348);
   0.0; (-0.00000000000000004937787504936076); 0.05541198033824877; (-0.05541198033824871); 0.000000000000000044482126930789627; (-0.05882862617678911); 0.05882862617678912; 0.00000000000000004937787504936076;
   0.0; 0.015676080979755046; (-0.015676080979754932); (-0.000000000000000007096531604639982); 0.05242606015162875; 0.003416645838540351; (-0.05541198033824877); (-0.015676080979755046);
   0.3333333333333333; (-0.03135216195951); (-0.2867358160459886); (-0.0034166458385403485); (-0.052426060151628706); 0.05541198033824871; 0.015676080979754932; 0.03135216195951;
   (-0.3333333333333333); 0.2867358160459886; (-0.08163209197700576); 0.08163209197700581; (-0.000000000000000044482126930789627); 0.000000000000000007096531604639982; 0.2867358160459886; (-0.2867358160459886);
   0.0].
(** sbp_operators.hpp:170-218 *)
Definition p1Qy_tri : list Q :=
  [(-0.08333333333333333); (-0.0027059901691244333); (-0.005411980338248704); 0.00341664583854018; (-0.05242606015162878); 0.05882862617678926; 0.08163209197700579; 0.0027059901691244333;
   0.0; (-0.0027059901691244594); (-0.05541198033824854); 0.05541198033824858; (-0.0000000000000000064970888222843104); 0.00000000000000007724028242245641; 0.005411980338248704; 0.0027059901691244594;
   0.08333333333333333; 0.05242606015162879; (-0.0034166458385401564); (-0.05882862617678931); (-0.08163209197700581); (-0.00341664583854018); 0.05541198033824854; (-0.05242606015162879);
   (-0.3333333333333333); 0.03135216195950943; 0.015676080979755664; 0.28673581604598863; 0.05242606015162878; (-0.05541198033824858); 0.0034166458385401564; (-0.03135216195950943);
   0.3333333333333333; (-0.015676080979755733); (-0.28673581604598875); (-0.05882862617678926); 0.0000000000000000064970888222843104; 0.05882862617678931; (-0.015676080979755664); 0.015676080979755733;
   0.0; (-0.00000000000000008515837925567978); (-0.08163209197700579); (-0.00000000000000007724028242245641); 0.08163209197700581; (-0.28673581604598863); 0.28673581604598875; 0.00000000000000008515837925567978;
   0.0].
(** sbp_operators.hpp:220-363 *)
Definition p2Qx_tri : list Q :=
  [(-0.041666666666666664); 0.00165594275882488; 0.0008279713794124311; 0.03913253436415384; (-0.004444220053912519); 0.0049259255750383315; 0.013312493473101197; (-0.005009746029429529);
   0.008811849557497501; (-0.01908538524261494); 0.019534336277717283; (-0.01799503539312151); (-0.00165594275882488); 0.041666666666666664; (-0.0008279713794124617); 0.004444220053912544;
   (-0.03913253436415384); (-0.008811849557497399); 0.005009746029429624; (-0.01331249347310119); (-0.004925925575038321); 0.019085385242614984; 0.017995035393121472; (-0.019534336277717175);
   (-0.0008279713794124311); 0.0008279713794124617; 0.0; 0.008386567898062898; (-0.008386567898062825); 0.0005655259755170869; 0.030320684806656364; (-0.030320684806656333);
   (-0.0005655259755170691); 0.000000000000000034002682184854144; (-0.0010903498494934884); 0.0010903498494935356; (-0.03913253436415384); (-0.004444220053912544); (-0.008386567898062898); 0.0;
   0.02947272100909271; (-0.02250908210650673); 0.020099871329744837; 0.028455906969529425; (-0.02141268575426185); (-0.0509353001625014); 0.022109436782419688; 0.04668245424861274;
   0.004444220053912519; 0.03913253436415384; 0.008386567898062825; (-0.02947272100909271); 0.0; 0.021412685754261924; (-0.028455906969529505); (-0.020099871329744844);
   0.02250908210650667; 0.0509353001625013; (-0.04668245424861285); (-0.022109436782419573); (-0.0049259255750383315); 0.008811849557497399; (-0.0005655259755170869); 0.02250908210650673;
   (-0.021412685754261924); 0.20833333333333334; (-0.014736360504546395); 0.05096498907603598; (-0.04019974265948965); (-0.07658657029639421); 0.07518510803015496; (-0.20737755133828076);
   (-0.013312493473101197); (-0.005009746029429624); (-0.030320684806656364); (-0.020099871329744837); 0.028455906969529505; 0.014736360504546395; 0.20833333333333334; (-0.04282537150852383);
   0.05096498907603601; (-0.18526811455586137); 0.024249807867653638; (-0.029904116047781436); 0.005009746029429529; 0.01331249347310119; 0.030320684806656333; (-0.028455906969529425);
   0.020099871329744844; (-0.05096498907603598); 0.04282537150852383; (-0.20833333333333334); (-0.014736360504546386); 0.18526811455586129; 0.029904116047781485; (-0.024249807867653655);
   (-0.008811849557497501); 0.004925925575038321; 0.0005655259755170691; 0.02141268575426185; (-0.02250908210650667); 0.04019974265948965; (-0.05096498907603601); 0.014736360504546386;
   (-0.20833333333333334); 0.0765865702963942; 0.20737755133828076; (-0.0751851080301551); 0.01908538524261494; (-0.019085385242614984); (-0.000000000000000034002682184854144); 0.0509353001625014;
   (-0.0509353001625013); 0.07658657029639421; 0.18526811455586137; (-0.18526811455586129); (-0.0765865702963942); 0.0; (-0.11619419587967428); 0.11619419587967363;
   (-0.019534336277717283); (-0.017995035393121472); 0.0010903498494934884; (-0.022109436782419688); 0.04668245424861285; (-0.07518510803015496); (-0.024249807867653638); (-0.029904116047781485);
   (-0.20737755133828076); 0.11619419587967428; 0.0; 0.2323883917593485; 0.01799503539312151; 0.019534336277717175; (-0.0010903498494935356); (-0.04668245424861274);
   0.022109436782419573; 0.20737755133828076; 0.029904116047781436; 0.024249807867653655; 0.0751851080301551; (-0.11619419587967363); (-0.2323883917593485); 0.0].
(** sbp_operators.hpp:364-507 *)
Definition p2Qy_tri : list Q :=
  [(-0.041666666666666664); 0.0008279713794124503; 0.0016559427588248715; 0.008811849557497392; (-0.005009746029429643); 0.013312493473101225; 0.004925925575038366; (-0.0044442200539124704);
   0.039132534364153766; (-0.017995035393121424); 0.01953433627771717; (-0.019085385242615067); (-0.0008279713794124503); 0.0; 0.0008279713794124536; (-0.0005655259755170486);
   (-0.030320684806656385); 0.030320684806656322; 0.0005655259755170853; (-0.008386567898062811); 0.008386567898062849; 0.0010903498494935573; (-0.0010903498494935064); (-0.00000000000000001873617181614412);
   (-0.0016559427588248715); (-0.0008279713794124536); 0.041666666666666664; (-0.004925925575038256); (-0.013312493473101103); 0.005009746029429568; (-0.008811849557497397); (-0.03913253436415373);
   0.004444220053912516; (-0.019534336277717144); 0.017995035393121486; 0.01908538524261498; (-0.008811849557497392); 0.0005655259755170486; 0.004925925575038256; (-0.20833333333333334);
   0.014736360504546409; (-0.050964989076036055); 0.040199742659489446; (-0.0225090821065067); 0.021412685754261758; (-0.07518510803015485); 0.20737755133828087; 0.07658657029639444;
   0.005009746029429643; 0.030320684806656385; 0.013312493473101103; (-0.014736360504546409); (-0.20833333333333334); 0.042825371508523766; (-0.050964989076036186); 0.02009987132974479;
   (-0.028455906969529435); (-0.024249807867653586); 0.029904116047781523; 0.18526811455586148; (-0.013312493473101225); (-0.030320684806656322); (-0.005009746029429568); 0.050964989076036055;
   (-0.042825371508523766); 0.20833333333333334; 0.014736360504546284; 0.028455906969529238; (-0.020099871329744765); (-0.029904116047781374); 0.024249807867653492; (-0.18526811455586126);
   (-0.004925925575038366); (-0.0005655259755170853); 0.008811849557497397; (-0.040199742659489446); 0.050964989076036186; (-0.014736360504546284); 0.20833333333333334; (-0.02141268575426196);
   0.0225090821065067; (-0.2073775513382809); 0.07518510803015489; (-0.07658657029639426); 0.0044442200539124704; 0.008386567898062811; 0.03913253436415373; 0.0225090821065067;
   (-0.02009987132974479); (-0.028455906969529238); 0.02141268575426196; 0.0; (-0.029472721009092838); (-0.022109436782419573); (-0.04668245424861295); 0.05093530016250149;
   (-0.039132534364153766); (-0.008386567898062849); (-0.004444220053912516); (-0.021412685754261758); 0.028455906969529435; 0.020099871329744765; (-0.0225090821065067); 0.029472721009092838;
   0.0; 0.04668245424861274; 0.022109436782419424; (-0.050935300162501584); 0.017995035393121424; (-0.0010903498494935573); 0.019534336277717144; 0.07518510803015485;
   0.024249807867653586; 0.029904116047781374; 0.2073775513382809; 0.022109436782419573; (-0.04668245424861274); 0.0; (-0.2323883917593484); (-0.11619419587967449);
   (-0.01953433627771717); 0.0010903498494935064; (-0.017995035393121486); (-0.20737755133828087); (-0.029904116047781523); (-0.024249807867653492); (-0.07518510803015489); 0.04668245424861295;
   (-0.022109436782419424); 0.2323883917593484; 0.0; 0.11619419587967418; 0.019085385242615067; 0.00000000000000001873617181614412; (-0.01908538524261498); (-0.07658657029639444);
   (-0.18526811455586148); 0.18526811455586126; 0.07658657029639426; (-0.05093530016250149); 0.050935300162501584; 0.11619419587967449; (-0.11619419587967418); 0.0].
(** sbp_operators.hpp:509-832 *)
Definition p3Qx_tri : list Q :=
  [(-0.025); 0.00038613834680634244; 0.00019306917340317602; (-0.004313294623214622); 0.026150109904194; 0.0008467948480090762; (-0.001279375679194124); (-0.002591703566416367);
   (-0.006014305111551604); (-0.0043919664320535776); 0.0013555869880658275; 0.005674761954426647; (-0.009296110467229439); 0.0068994999497265785; (-0.007738689099893053); 0.008730947890165592;
   0.0066745177079253456; 0.003714018216830397; (-0.00038613834680634244); 0.025; (-0.0001930691734031676); 0.0043132946232146965; (-0.0008467948480091515); (-0.026150109904194026);
   0.004391966432053574; (-0.005674761954426613); (-0.0013555869880658225); 0.0012793756791941997; 0.006014305111551616; 0.002591703566416362; 0.009296110467229394; 0.007738689099892987;
   (-0.006899499949726609); (-0.00873094789016565); (-0.003714018216830388); (-0.00667451770792535); (-0.00019306917340317602); 0.0001930691734031676; 0.0; (-0.00000000000000001811403068897725);
   (-0.003422601545135204); 0.0034226015451352208; 0.00007867180883891618; (-0.0005087921400567256); 0.02047534794976741; (-0.00007867180883894228); (-0.02047534794976745); 0.0005087921400567317;
   (-0.000000000000000031408883937545775); (-0.0015574213673364594); 0.0015574213673363512; (-0.000000000000000038101691224041025); 0.00501692967333524; (-0.005016929673335273); 0.004313294623214622; (-0.0043132946232146965);
   0.00000000000000001811403068897725; 0.0; (-0.022742479423913452); 0.022742479423913463; 0.013839080476872906; (-0.018937679610066337); (-0.00023520372509527936); (-0.013839080476873072);
   0.00023520372509506197; 0.01893767961006634; 0.00000000000000003307510777073195; (-0.03459871245122664); 0.034598712451226414; (-0.00000000000000009189125306458539); (-0.040364384428631335); 0.04036438442863142;
   (-0.026150109904194); 0.0008467948480091515; 0.003422601545135204; 0.022742479423913452; 0.0; (-0.0049690326747715815); 0.0005355452305399917; 0.004176389966439341;
   (-0.007673438181237941); 0.019215132348964777; (-0.014161663799665686); (-0.014668899354750303); 0.018151749264159387; (-0.003914929837096848); (-0.03305871440935247); 0.025231681429319797;
   0.019415762994507504; (-0.009141348889919515); (-0.0008467948480090762); 0.026150109904194026; (-0.0034226015451352208); (-0.022742479423913463); 0.0049690326747715815; 0.0;
   (-0.019215132348964697); 0.014668899354750261; 0.014161663799665507; (-0.0005355452305398348); 0.007673438181238029; (-0.004176389966439356); (-0.01815174926415941); 0.03305871440935236;
   0.003914929837096865; (-0.025231681429319842); 0.00914134888991982; (-0.01941576299450745); 0.001279375679194124; (-0.004391966432053574); (-0.00007867180883891618); (-0.013839080476872906);
   (-0.0005355452305399917); 0.019215132348964697; 0.17777777777777778; 0.012754709966348579; (-0.00998776945756491); (-0.027678160953745846); 0.038152811959031134; (-0.000300341505444743);
   0.03163596580772814; (-0.18370550217471002); 0.06623467825895417; (-0.07008260635708521); (-0.006732585472688898); (-0.029718221928453626); 0.002591703566416367; 0.005674761954426613;
   0.0005087921400567256; 0.018937679610066337; (-0.004176389966439341); (-0.014668899354750261); (-0.012754709966348579); 0.1361111111111111; 0.002484516337385769; (-0.0003003415054447031);
   (-0.01833805376610492); 0.01534687636247602; 0.04579753418587275; (-0.032433732404120307); 0.008284335438395978; 0.031430964488114665; (-0.040255184401736255); (-0.14424096382937784);
   0.006014305111551604; 0.0013555869880658225; (-0.02047534794976741); 0.00023520372509527936; 0.007673438181237941; (-0.014161663799665507); 0.00998776945756491; (-0.002484516337385769);
   0.1361111111111111; 0.03815281195903106; (-0.02933779870950058); (-0.01833805376610493); 0.004369405601299169; (-0.014281983139960834); 0.012738819776520237; (-0.12482520083487036);
   (-0.015023502972416588); 0.022289615598194923; 0.0043919664320535776; (-0.0012793756791941997); 0.00007867180883894228; 0.013839080476873072; (-0.019215132348964777); 0.0005355452305398348;
   0.027678160953745846; 0.0003003415054447031; (-0.03815281195903106); (-0.17777777777777778); 0.009987769457564933; (-0.012754709966348466); (-0.031635965807727734); (-0.06623467825895436);
   0.18370550217470988; 0.07008260635708495; 0.029718221928453817; 0.006732585472688972; (-0.0013555869880658275); (-0.006014305111551616); 0.02047534794976745; (-0.00023520372509506197);
   0.014161663799665686; (-0.007673438181238029); (-0.038152811959031134); 0.01833805376610492; 0.02933779870950058; (-0.009987769457564933); (-0.1361111111111111); 0.002484516337385778;
   (-0.004369405601299118); (-0.012738819776520213); 0.014281983139960831; 0.12482520083487034; (-0.022289615598195082); 0.015023502972416558; (-0.005674761954426647); (-0.002591703566416362);
   (-0.0005087921400567317); (-0.01893767961006634); 0.014668899354750303; 0.004176389966439356; 0.000300341505444743; (-0.01534687636247602); 0.01833805376610493; 0.012754709966348466;
   (-0.002484516337385778); (-0.1361111111111111); (-0.04579753418587276); (-0.008284335438395978); 0.03243373240412026; (-0.031430964488114596); 0.1442409638293779; 0.04025518440173631;
   0.009296110467229439; (-0.009296110467229394); 0.000000000000000031408883937545775; (-0.00000000000000003307510777073195); (-0.018151749264159387); 0.01815174926415941; (-0.03163596580772814); (-0.04579753418587275);
   (-0.004369405601299169); 0.031635965807727734; 0.004369405601299118; 0.04579753418587276; 0.0; 0.10887349999842644; (-0.10887349999842626); (-0.00000000000000010387027068224741);
   (-0.16866652215981862); 0.16866652215981834; (-0.0068994999497265785); (-0.007738689099892987); 0.0015574213673364594; 0.03459871245122664; 0.003914929837096848; (-0.03305871440935236);
   0.18370550217471002; 0.032433732404120307; 0.014281983139960834; 0.06623467825895436; 0.012738819776520213; 0.008284335438395978; (-0.10887349999842644); 0.0;
   (-0.2177469999968528); (-0.08605211896801318); 0.02000500438213754; 0.08261440319180571; 0.007738689099893053; 0.006899499949726609; (-0.0015574213673363512); (-0.034598712451226414);
   0.03305871440935247; (-0.003914929837096865); (-0.06623467825895417); (-0.008284335438395978); (-0.012738819776520237); (-0.18370550217470988); (-0.014281983139960831); (-0.03243373240412026);
   0.10887349999842626; 0.2177469999968528; 0.0; 0.08605211896801304; (-0.08261440319180598); (-0.020005004382137637); (-0.008730947890165592); 0.00873094789016565;
   0.000000000000000038101691224041025; 0.00000000000000009189125306458539; (-0.025231681429319797); 0.025231681429319842; 0.07008260635708521; (-0.031430964488114665); 0.12482520083487036; (-0.07008260635708495);
   (-0.12482520083487034); 0.031430964488114596; 0.00000000000000010387027068224741; 0.08605211896801318; (-0.08605211896801304); 0.0; 0.048482489012154836; (-0.04848248901215527);
   (-0.0066745177079253456); 0.003714018216830388; (-0.00501692967333524); 0.040364384428631335; (-0.019415762994507504); (-0.00914134888991982); 0.006732585472688898; 0.040255184401736255;
   0.015023502972416588; (-0.029718221928453817); 0.022289615598195082; (-0.1442409638293779); 0.16866652215981862; (-0.02000500438213754); 0.08261440319180598; (-0.048482489012154836);
   0.0; (-0.0969649780243106); (-0.003714018216830397); 0.00667451770792535; 0.005016929673335273; (-0.04036438442863142); 0.009141348889919515; 0.01941576299450745;
   0.029718221928453626; 0.14424096382937784; (-0.022289615598194923); (-0.006732585472688972); (-0.015023502972416558); (-0.04025518440173631); (-0.16866652215981834); (-0.08261440319180571);
   0.020005004382137637; 0.04848248901215527; 0.0969649780243106; 0.0].
(** sbp_operators.hpp:833-1156 *)
Definition p3Qy_tri : list Q :=
  [(-0.025); 0.00019306917340317534; 0.0003861383468063562; (-0.004391966432053573); 0.005674761954426614; 0.0013555869880658071; (-0.001279375679194162); (-0.006014305111551563);
   (-0.0025917035664163716); (-0.004313294623214653); 0.0008467948480091287; 0.026150109904194044; (-0.007738689099893034); 0.006899499949726573; (-0.00929611046722942); 0.003714018216830319;
   0.006674517707925368; 0.008730947890165628; (-0.00019306917340317534); 0.0; 0.0001930691734031987; (-0.00007867180883892939); 0.0005087921400567093; (-0.020475347949767426);
   0.00007867180883890702; 0.02047534794976745; (-0.0005087921400567224); 0.000000000000000003933063756862708; 0.003422601545135217; (-0.003422601545135227); 0.0015574213673363562; (-0.0015574213673364315);
   (-0.000000000000000029089629150826796); (-0.005016929673335305); 0.00501692967333525; 0.0000000000000000012974828406857824; (-0.0003861383468063562); (-0.0001930691734031987); 0.025; 0.0012793756791941422;
   0.0025917035664164267; 0.006014305111551611; 0.004391966432053605; (-0.0013555869880657663); (-0.005674761954426653); 0.004313294623214667; (-0.026150109904194044); (-0.0008467948480091219);
   (-0.006899499949726599); 0.007738689099893001; 0.009296110467229371; (-0.006674517707925323); (-0.003714018216830389); (-0.008730947890165621); 0.004391966432053573; 0.00007867180883892939;
   (-0.0012793756791941422); (-0.17777777777777778); (-0.012754709966348459); 0.009987769457564948; 0.02767816095374588; (-0.03815281195903109); 0.0003003415054444579; 0.013839080476872836;
   0.0005355452305397985; (-0.019215132348964662); 0.18370550217471004; (-0.06623467825895435); (-0.03163596580772795); 0.006732585472689173; 0.029718221928453598; 0.07008260635708524;
   (-0.005674761954426614); (-0.0005087921400567093); (-0.0025917035664164267); 0.012754709966348459; (-0.1361111111111111); (-0.0024845163373858115); 0.0003003415054447968; 0.018338053766104877;
   (-0.015346876362475996); (-0.018937679610066323); 0.004176389966439225; 0.01466889935475038; 0.0324337324041203; (-0.008284335438395867); (-0.04579753418587275); 0.04025518440173629;
   0.14424096382937798; (-0.03143096448811468); (-0.0013555869880658071); 0.020475347949767426; (-0.006014305111551611); (-0.009987769457564948); 0.0024845163373858115; (-0.1361111111111111);
   (-0.03815281195903103); 0.029337798709500526; 0.018338053766104836; (-0.00023520372509522585); (-0.007673438181238059); 0.014161663799665561; 0.014281983139961024; (-0.012738819776520393);
   (-0.004369405601299049); 0.01502350297241652; (-0.022289615598195037); 0.12482520083487048; 0.001279375679194162; (-0.00007867180883890702); (-0.004391966432053605); (-0.02767816095374588);
   (-0.0003003415054447968); 0.03815281195903103; 0.17777777777777778; (-0.009987769457564947); 0.012754709966348627; (-0.013839080476872906); 0.019215132348964804; (-0.0005355452305399411);
   0.0662346782589546; (-0.18370550217471007); 0.03163596580772753; (-0.029718221928454); (-0.0067325854726889315); (-0.07008260635708502); 0.006014305111551563; (-0.02047534794976745);
   0.0013555869880657663; 0.03815281195903109; (-0.018338053766104877); (-0.029337798709500526); 0.009987769457564947; 0.1361111111111111; (-0.002484516337385802); 0.00023520372509514004;
   (-0.014161663799665537); 0.007673438181237917; 0.012738819776520296; (-0.014281983139960897); 0.004369405601299139; 0.02228961559819497; (-0.015023502972416287); (-0.12482520083487056);
   0.0025917035664163716; 0.0005087921400567224; 0.005674761954426653; (-0.0003003415054444579); 0.015346876362475996; (-0.018338053766104836); (-0.012754709966348627); 0.002484516337385802;
   0.1361111111111111; 0.01893767961006636; (-0.014668899354750206); (-0.004176389966439286); 0.008284335438396104; (-0.03243373240412036); 0.045797534185872804; (-0.14424096382937787);
   (-0.04025518440173633); 0.03143096448811465; 0.004313294623214653; (-0.000000000000000003933063756862708); (-0.004313294623214667); (-0.013839080476872836); 0.018937679610066323; 0.00023520372509522585;
   0.013839080476872906; (-0.00023520372509514004); (-0.01893767961006636); 0.0; 0.022742479423913376; (-0.022742479423913504); 0.03459871245122668; (-0.03459871245122664);
   0.00000000000000005917178914079196; 0.040364384428631425; (-0.040364384428631286); (-0.00000000000000012815327221114825); (-0.0008467948480091287); (-0.003422601545135217); 0.026150109904194044; (-0.0005355452305397985);
   (-0.004176389966439225); 0.007673438181238059; (-0.019215132348964804); 0.014161663799665537; 0.014668899354750206; (-0.022742479423913376); 0.0; 0.004969032674771632;
   0.003914929837096843; 0.03305871440935247; (-0.018151749264159515); (-0.019415762994507518); 0.009141348889919583; (-0.025231681429319763); (-0.026150109904194044); 0.003422601545135227;
   0.0008467948480091219; 0.019215132348964662; (-0.01466889935475038); (-0.014161663799665561); 0.0005355452305399411; (-0.007673438181237917); 0.004176389966439286; 0.022742479423913504;
   (-0.004969032674771632); 0.0; (-0.03305871440935257); (-0.003914929837096838); 0.01815174926415944; (-0.009141348889919706); 0.019415762994507337; 0.025231681429319912;
   0.007738689099893034; (-0.0015574213673363562); 0.006899499949726599; (-0.18370550217471004); (-0.0324337324041203); (-0.014281983139961024); (-0.0662346782589546); (-0.012738819776520296);
   (-0.008284335438396104); (-0.03459871245122668); (-0.003914929837096843); 0.03305871440935257; 0.0; 0.2177469999968528; 0.10887349999842644; (-0.02000500438213755);
   (-0.08261440319180567); 0.08605211896801268; (-0.006899499949726573); 0.0015574213673364315; (-0.007738689099893001); 0.06623467825895435; 0.008284335438395867; 0.012738819776520393;
   0.18370550217471007; 0.014281983139960897; 0.03243373240412036; 0.03459871245122664; (-0.03305871440935247); 0.003914929837096838; (-0.2177469999968528); 0.0;
   (-0.1088734999984265); 0.08261440319180548; 0.02000500438213748; (-0.08605211896801292); 0.00929611046722942; 0.000000000000000029089629150826796; (-0.009296110467229371); 0.03163596580772795;
   0.04579753418587275; 0.004369405601299049; (-0.03163596580772753); (-0.004369405601299139); (-0.045797534185872804); (-0.00000000000000005917178914079196); 0.018151749264159515; (-0.01815174926415944);
   (-0.10887349999842644); 0.1088734999984265; 0.0; 0.16866652215981853; (-0.16866652215981862); 0.0000000000000000797785471351964; (-0.003714018216830319); 0.005016929673335305;
   0.006674517707925323; (-0.006732585472689173); (-0.04025518440173629); (-0.01502350297241652); 0.029718221928454; (-0.02228961559819497); 0.14424096382937787; (-0.040364384428631425);
   0.019415762994507518; 0.009141348889919706; 0.02000500438213755; (-0.08261440319180548); (-0.16866652215981853); 0.0; 0.09696497802431021; 0.048482489012155267;
   (-0.006674517707925368); (-0.00501692967333525); 0.003714018216830389; (-0.029718221928453598); (-0.14424096382937798); 0.022289615598195037; 0.0067325854726889315; 0.015023502972416287;
   0.04025518440173633; 0.040364384428631286; (-0.009141348889919583); (-0.019415762994507337); 0.08261440319180567; (-0.02000500438213748); 0.16866652215981862; (-0.09696497802431021);
   0.0; (-0.048482489012155364); (-0.008730947890165628); (-0.0000000000000000012974828406857824); 0.008730947890165621; (-0.07008260635708524); 0.03143096448811468; (-0.12482520083487048);
   0.07008260635708502; 0.12482520083487056; (-0.03143096448811465); 0.00000000000000012815327221114825; 0.025231681429319763; (-0.025231681429319912); (-0.08605211896801268); 0.08605211896801292;
   (-0.0000000000000000797785471351964); (-0.048482489012155267); 0.048482489012155364; 0.0].
(** sbp_operators.hpp:1158-1886 *)
Definition p4Qx_tri : list Q :=
  [(-0.016666666666666666); (-0.000214309229735513); (-0.0001071546148677704); (-0.0029313964555212767); 0.00020983538563342261; 0.018317626168257026; 0.0006988077072922807; 0.0014274953678259552;
   0.0010625284661002496; 0.0001360887269937187; 0.0024415076470778135; 0.001143173443701126; (-0.0020001976214611117); (-0.0003857856031010511); 0.002457584662640329; (-0.004106993231020412);
   0.0037887573463723273; (-0.0013870836087764217); 0.002445868879192412; 0.0002599545896303318; 0.0022192603521329255; 0.001918441388684453; (-0.0049709883948692996); (-0.0035020569314468267);
   (-0.002122391028816586); (-0.004069625896942028); 0.003937719151690412; 0.000214309229735513; 0.016666666666666666; 0.00010715461486774745; (-0.0002098353856334269); 0.0029313964555212667;
   (-0.0006988077072922563); (-0.01831762616825704); 0.002000197621461105; (-0.0011431734437011105); (-0.0024575846626403008); 0.00038578560310103724; (-0.0010625284661003062); (-0.0014274953678260094);
   (-0.002441507647077807); (-0.00013608872699372198); 0.004106993231020395; 0.001387083608776462; (-0.003788757346372277); (-0.0024458688791924583); (-0.0022192603521329177); (-0.0002599545896303008);
   0.004970988394869345; (-0.0019184413886844207); (-0.003937719151690425); 0.004069625896942042; 0.0021223910288165476; 0.0035020569314467924; 0.0001071546148677704; (-0.00010715461486774745);
   0.0; (-0.00036496690172572294); 0.0003649669017257189; 0.0023054189200840654; (-0.0023054189200840854); (-0.0009333380580676765); (-0.0009311988340601483); 0.0010845933103932933;
   0.015860041505616707; 0.0009311988340601595; 0.0009333380580676894; (-0.01586004150561669); (-0.0010845933103933035); (-0.000000000000000020080836793331802); (-0.0027199096222439373); 0.0027199096222439633;
   (-0.000000000000000020360436916633158); 0.00022660852705955092; (-0.0002266085270595233); 0.0013796659026302366; (-0.001379665902630221); (-0.0009013624979273186); (-0.002019277763006004); 0.002019277763006013;
   0.0009013624979272856; 0.0029313964555212767; 0.0002098353856334269; 0.00036496690172572294; 0.0; 0.012947491868313584; (-0.016147530121310313); (-0.0030605809541389205);
   0.0006701644592236515; (-0.006703129489913816); 0.004217219681229069; 0.0009408727769745327; 0.0022711887822627363; (-0.011021591909392985); 0.0009237213430462013; 0.011848755233673096;
   (-0.005703298183612172); (-0.02306325767288896); (-0.008149664063315805); (-0.008888077079095655); (-0.00402654452637326); (-0.005580861784992068); 0.014620173566014518; 0.00690082845250107;
   0.01756235952478158; (-0.0025583955298422475); 0.019471753435872697; (-0.0009777965518963185); (-0.00020983538563342261); (-0.0029313964555212667); (-0.0003649669017257189); (-0.012947491868313584);
   0.0; 0.003060580954138957; 0.016147530121310136; 0.011021591909392957; (-0.0022711887822627094); (-0.011848755233673153); (-0.0009237213430462837); 0.006703129489913839;
   (-0.0006701644592235698); (-0.000940872776974446); (-0.0042172196812290475); 0.005703298183612255; 0.00814966406331577; 0.0230632576728889; 0.00888807707909556; 0.005580861784992141;
   0.004026544526373338; (-0.006900828452501105); (-0.01462017356601437); 0.0009777965518963795; (-0.019471753435872607); 0.0025583955298422527; (-0.01756235952478165); (-0.018317626168257026);
   0.0006988077072922563; (-0.0023054189200840654); 0.016147530121310313; (-0.003060580954138957); 0.0; (-0.001311427312518577); (-0.0010163287730642436); 0.00018590475184166385;
   (-0.0015231703437219156); 0.004696626308401144; (-0.012079618660282109); 0.013473233460674298; 0.007796971251607519; (-0.009771477569032776); (-0.014024003919796352); 0.013884990613492692;
   0.004507204208821129; 0.003964204319985939; (-0.004922250439588271); (-0.0034307928403636144); (-0.0033849309674018973); 0.00941888598391791; 0.0001343954510832465; 0.0014522029048587252;
   (-0.019020306053158346); 0.01780697583812091; (-0.0006988077072922807); 0.01831762616825704; 0.0023054189200840854; 0.0030605809541389205; (-0.016147530121310136); 0.001311427312518577;
   0.0; (-0.013473233460674451); 0.01207961866028227; 0.009771477569032747; (-0.007796971251607464); (-0.00018590475184171188); 0.0010163287730643323; (-0.004696626308401121);
   0.001523170343721968; 0.014024003919796232; (-0.00450720420882117); (-0.013884990613492685); (-0.003964204319986095); 0.003430792840363471; 0.0049222504395881215; (-0.009418885983918011);
   0.0033849309674017273; (-0.017806975838120957); 0.0190203060531583; (-0.0014522029048587525); (-0.00013439545108319493); (-0.0014274953678259552); (-0.002000197621461105); 0.0009333380580676765;
   (-0.0006701644592236515); (-0.011021591909392957); 0.0010163287730642436; 0.013473233460674451; 0.13871459425887162; (-0.006473745934156848); 0.003316975406941342; 0.0009807989008470488;
   0.0016010243230391511; 0.01340625897982781; (-0.016296838341511397); (-0.0011267775288161758); 0.03177928237641467; 0.006848374682493507; (-0.020575368740190607); 0.01959232176703906;
   0.0019463808076737997; 0.028499674038401427; 0.01642174988366094; (-0.003163946655619023); (-0.03940115558855935); (-0.1456058399757094); (-0.027989675864102642); (-0.0027775377304478815);
   (-0.0010625284661002496); 0.0011431734437011105; 0.0009311988340601483; 0.006703129489913816; 0.0022711887822627094; (-0.00018590475184166385); (-0.01207961866028227); 0.006473745934156848;
   0.13871459425887162; (-0.0020797820532919); (-0.012830554714368963); (-0.022043183818786043); 0.0016010243230390885; 0.0253219886943475; 0.00194005011611054; (-0.043638626413079654);
   0.0011450764988814059; 0.023629618313098903; 0.024473129512027954; (-0.00694169627142176); 0.014011459982046753; (-0.005335933260290146); (-0.010427316339321062); (-0.13870501152320822);
   (-0.024780982022544962); (-0.004141743207515299); 0.03589350331953344; (-0.0001360887269937187); 0.0024575846626403008; (-0.0010845933103932933); (-0.004217219681229069); 0.011848755233673153;
   0.0015231703437219156; (-0.009771477569032747); (-0.003316975406941342); 0.0020797820532919; 0.09461873907446174; 0.0006557136562592383; 0.001940050116110648; (-0.0011267775288160953);
   0.009320141595329528; (-0.009393252616802284); (-0.017023401641193408); 0.019712388090481113; (-0.10434946475609574); 0.0038937105748518834; (-0.008103766559551919); 0.015836324744864547;
   0.028375835620054652; (-0.02384317781403154); 0.016761889239215504; (-0.02542406432564294); 0.006094640992839512; (-0.007328466061071734); (-0.0024415076470778135); (-0.00038578560310103724);
   (-0.015860041505616707); (-0.0009408727769745327); 0.0009237213430462837; (-0.004696626308401144); 0.007796971251607464; (-0.0009807989008470488); 0.012830554714368963; (-0.0006557136562592383);
   0.09461873907446174; 0.02532198869434739; (-0.01629683834151132); (-0.01954295513806559); 0.009320141595329533; (-0.09046447414260311); 0.0056883841706848294; (-0.012516197432372131);
   0.010914074305276389; (-0.004139562239566); 0.0004629177344882165; (-0.005876263156213058); 0.0062290364439227955; (-0.016005178341724952); 0.01337695827181373; (-0.006036201975910574);
   0.009355529566896304; (-0.001143173443701126); 0.0010625284661003062; (-0.0009311988340601595); (-0.0022711887822627363); (-0.006703129489913839); 0.012079618660282109; 0.00018590475184171188;
   (-0.0016010243230391511); 0.022043183818786043; (-0.001940050116110648); (-0.02532198869434739); (-0.13871459425887162); (-0.006473745934156764); 0.012830554714368841; 0.0020797820532919464;
   0.043638626413079765; (-0.023629618313098823); (-0.0011450764988812812); (-0.024473129512028007); (-0.014011459982046887); 0.006941696271421674; 0.010427316339320977; 0.005335933260290122;
   (-0.035893503319533386); 0.0041417432075153285; 0.024780982022545008; 0.13870501152320827; 0.0020001976214611117; 0.0014274953678260094; (-0.0009333380580676894); 0.011021591909392985;
   0.0006701644592235698; (-0.013473233460674298); (-0.0010163287730643323); (-0.01340625897982781); (-0.0016010243230390885); 0.0011267775288160953; 0.01629683834151132; 0.006473745934156764;
   (-0.13871459425887162); (-0.000980798900846918); (-0.0033169754069415553); (-0.03177928237641479); 0.020575368740190537; (-0.006848374682493741); (-0.019592321767038998); (-0.028499674038401285);
   (-0.0019463808076738713); 0.0031639466556190195; (-0.01642174988366091); 0.0027775377304477206; 0.027989675864102594; 0.1456058399757092; 0.03940115558855942; 0.0003857856031010511;
   0.002441507647077807; 0.01586004150561669; (-0.0009237213430462013); 0.000940872776974446; (-0.007796971251607519); 0.004696626308401121; 0.016296838341511397; (-0.0253219886943475);
   (-0.009320141595329528); 0.01954295513806559; (-0.012830554714368841); 0.000980798900846918; (-0.09461873907446174); 0.0006557136562591793; 0.09046447414260292; 0.012516197432372107;
   (-0.005688384170684965); (-0.01091407430527644); (-0.00046291773448829324); 0.004139562239565931; (-0.006229036443922811); 0.005876263156213052; (-0.009355529566896316); 0.006036201975910492;
   (-0.01337695827181374); 0.01600517834172504; (-0.002457584662640329); 0.00013608872699372198; 0.0010845933103933035; (-0.011848755233673096); 0.0042172196812290475; 0.009771477569032776;
   (-0.001523170343721968); 0.0011267775288161758; (-0.00194005011611054); 0.009393252616802284; (-0.009320141595329533); (-0.0020797820532919464); 0.0033169754069415553; (-0.0006557136562591793);
   (-0.09461873907446174); 0.01702340164119348; 0.1043494647560957; (-0.01971238809048109); (-0.003893710574851791); (-0.01583632474486454); 0.008103766559551804; 0.023843177814031506;
   (-0.028375835620054676); 0.00732846606107185; (-0.006094640992839532); 0.025424064325642867; (-0.016761889239215486); 0.004106993231020412; (-0.004106993231020395); 0.000000000000000020080836793331802;
   0.005703298183612172; (-0.005703298183612255); 0.014024003919796352; (-0.014024003919796232); (-0.03177928237641467); 0.043638626413079654; 0.017023401641193408; 0.09046447414260311;
   (-0.043638626413079765); 0.03177928237641479; (-0.09046447414260292); (-0.01702340164119348); 0.0; (-0.022899697854326488); 0.022899697854326568; 0.00000000000000013090424982492033;
   0.009495714521843923; (-0.009495714521843158); 0.018715353650341042; (-0.018715353650340875); 0.08658375444226915; (-0.030435781683785024); 0.030435781683785374; (-0.08658375444226889);
   (-0.0037887573463723273); (-0.001387083608776462); 0.0027199096222439373; 0.02306325767288896; (-0.00814966406331577); (-0.013884990613492692); 0.00450720420882117; (-0.006848374682493507);
   (-0.0011450764988814059); (-0.019712388090481113); (-0.0056883841706848294); 0.023629618313098823; (-0.020575368740190537); (-0.012516197432372107); (-0.1043494647560957); 0.022899697854326488;
   0.0; 0.04579939570865369; (-0.011262660228597336); 0.04275618813056683; (-0.020758374750440664); (-0.0665543493830226); 0.11687773251462695; 0.0007386831582643038;
   0.019454036808605434; 0.030293978072357685; (-0.036118567699237374); 0.0013870836087764217; 0.003788757346372277; (-0.0027199096222439633); 0.008149664063315805; (-0.0230632576728889);
   (-0.004507204208821129); 0.013884990613492685; 0.020575368740190607; (-0.023629618313098903); 0.10434946475609574; 0.012516197432372131; 0.0011450764988812812; 0.006848374682493741;
   0.005688384170684965; 0.01971238809048109; (-0.022899697854326568); (-0.04579939570865369); 0.0; 0.01126266022859706; 0.020758374750441205; (-0.04275618813056694);
   (-0.11687773251462653); 0.06655434938302238; 0.03611856769923731; (-0.03029397807235787); (-0.01945403680860553); (-0.0007386831582645241); (-0.002445868879192412); 0.0024458688791924583;
   0.000000000000000020360436916633158; 0.008888077079095655; (-0.00888807707909556); (-0.003964204319985939); 0.003964204319986095; (-0.01959232176703906); (-0.024473129512027954); (-0.0038937105748518834);
   (-0.010914074305276389); 0.024473129512028007; 0.019592321767038998; 0.01091407430527644; 0.003893710574851791; (-0.00000000000000013090424982492033); 0.011262660228597336; (-0.01126266022859706);
   0.0; (-0.05887259234397622); 0.05887259234397597; (-0.0011899398592735064); 0.001189939859273526; 0.14280000419059452; 0.05088086448146635; (-0.0508808644814664);
   (-0.14280000419059444); (-0.0002599545896303318); 0.0022192603521329177; (-0.00022660852705955092); 0.00402654452637326; (-0.005580861784992141); 0.004922250439588271; (-0.003430792840363471);
   (-0.0019463808076737997); 0.00694169627142176; 0.008103766559551919; 0.004139562239566; 0.014011459982046887; 0.028499674038401285; 0.00046291773448829324; 0.01583632474486454;
   (-0.009495714521843923); (-0.04275618813056683); (-0.020758374750441205); 0.05887259234397622; 0.0; 0.1177451846879524; 0.0317730384375334; (-0.007195421324355439);
   (-0.01780539183140735); (-0.0189953316906805); (-0.14999542551495026); (-0.01910782604393296); (-0.0022192603521329255); 0.0002599545896303008; 0.0002266085270595233; 0.005580861784992068;
   (-0.004026544526373338); 0.0034307928403636144; (-0.0049222504395881215); (-0.028499674038401427); (-0.014011459982046753); (-0.015836324744864547); (-0.0004629177344882165); (-0.006941696271421674);
   0.0019463808076738713; (-0.004139562239565931); (-0.008103766559551804); 0.009495714521843158; 0.020758374750440664; 0.04275618813056694; (-0.05887259234397597); (-0.1177451846879524);
   0.0; 0.007195421324355559; (-0.031773038437533534); 0.019107826043932914; 0.14999542551494996; 0.01899533169068063; 0.01780539183140717; (-0.001918441388684453);
   (-0.004970988394869345); (-0.0013796659026302366); (-0.014620173566014518); 0.006900828452501105; 0.0033849309674018973; 0.009418885983918011; (-0.01642174988366094); 0.005335933260290146;
   (-0.028375835620054652); 0.005876263156213058; (-0.010427316339320977); (-0.0031639466556190195); 0.006229036443922811; (-0.023843177814031506); (-0.018715353650341042); 0.0665543493830226;
   0.11687773251462653; 0.0011899398592735064; (-0.0317730384375334); (-0.007195421324355559); 0.0; (-0.11257228338069045); (-0.00576546261902268); 0.02653820879392348;
   0.007130241729291351; 0.025706504432444207; 0.0049709883948692996; 0.0019184413886844207; 0.001379665902630221; (-0.00690082845250107); 0.01462017356601437; (-0.00941888598391791);
   (-0.0033849309674017273); 0.003163946655619023; 0.010427316339321062; 0.02384317781403154; (-0.0062290364439227955); (-0.005335933260290122); 0.01642174988366091; (-0.005876263156213052);
   0.028375835620054676; 0.018715353650340875; (-0.11687773251462695); (-0.06655434938302238); (-0.001189939859273526); 0.007195421324355439; 0.031773038437533534; 0.11257228338069045;
   0.0; (-0.025706504432444093); (-0.0071302417292914665); (-0.026538208793923247); 0.005765462619022591; 0.0035020569314468267; 0.003937719151690425; 0.0009013624979273186;
   (-0.01756235952478158); (-0.0009777965518963795); (-0.0001343954510832465); 0.017806975838120957; 0.03940115558855935; 0.13870501152320822; (-0.016761889239215504); 0.016005178341724952;
   0.035893503319533386; (-0.0027775377304477206); 0.009355529566896316; (-0.00732846606107185); (-0.08658375444226915); (-0.0007386831582643038); (-0.03611856769923731); (-0.14280000419059452);
   0.01780539183140735; (-0.019107826043932914); 0.00576546261902268; 0.025706504432444093; 0.0; 0.0562861416903453; 0.012895704348313428; (-0.053076417587846335);
   0.002122391028816586; (-0.004069625896942042); 0.002019277763006004; 0.0025583955298422475; 0.019471753435872607; (-0.0014522029048587252); (-0.0190203060531583); 0.1456058399757094;
   0.024780982022544962; 0.02542406432564294; (-0.01337695827181373); (-0.0041417432075153285); (-0.027989675864102594); (-0.006036201975910492); 0.006094640992839532; 0.030435781683785024;
   (-0.019454036808605434); 0.03029397807235787; (-0.05088086448146635); 0.0189953316906805; (-0.14999542551494996); (-0.02653820879392348); 0.0071302417292914665; (-0.0562861416903453);
   0.0; 0.05141300886488828; 0.01289570434831414; 0.004069625896942028; (-0.0021223910288165476); (-0.002019277763006013); (-0.019471753435872697); (-0.0025583955298422527);
   0.019020306053158346; 0.0014522029048587525; 0.027989675864102642; 0.004141743207515299; (-0.006094640992839512); 0.006036201975910574; (-0.024780982022545008); (-0.1456058399757092);
   0.01337695827181374; (-0.025424064325642867); (-0.030435781683785374); (-0.030293978072357685); 0.01945403680860553; 0.0508808644814664; 0.14999542551495026; (-0.01899533169068063);
   (-0.007130241729291351); 0.026538208793923247; (-0.012895704348313428); (-0.05141300886488828); 0.0; 0.056286141690345175; (-0.003937719151690412); (-0.0035020569314467924);
   (-0.0009013624979272856); 0.0009777965518963185; 0.01756235952478165; (-0.01780697583812091); 0.00013439545108319493; 0.0027775377304478815; (-0.03589350331953344); 0.007328466061071734;
   (-0.009355529566896304); (-0.13870501152320827); (-0.03940115558855942); (-0.01600517834172504); 0.016761889239215486; 0.08658375444226889; 0.036118567699237374; 0.0007386831582645241;
   0.14280000419059444; 0.01910782604393296; (-0.01780539183140717); (-0.025706504432444207); (-0.005765462619022591); 0.053076417587846335; (-0.01289570434831414); (-0.056286141690345175);
   0.0].
(** sbp_operators.hpp:1887-2615 *)
Definition p4Qy_tri : list Q :=
  [(-0.016666666666666666); (-0.00010715461486775138); (-0.00021430922973553055); (-0.0020001976214610757); 0.001143173443701099; 0.002457584662640309; (-0.0003857856031010284); 0.0010625284661002303;
   0.0014274953678259632; 0.002441507647077841; 0.00013608872699373182; 0.00020983538563342465; (-0.002931396455521299); 0.0006988077072922343; 0.018317626168257002; (-0.0013870836087764233);
   0.003788757346372296; (-0.0041069932310203745); 0.002219260352132909; 0.000259954589630329; 0.002445868879192446; 0.003937719151690449; (-0.004069625896941998); (-0.002122391028816585);
   (-0.003502056931446821); (-0.004970988394869329); 0.0019184413886844376; 0.00010715461486775138; 0.0; (-0.00010715461486776472); 0.0009333380580676642; 0.0009311988340601574;
   (-0.0010845933103932756); (-0.015860041505616727); (-0.0009311988340601749); (-0.0009333380580676975); 0.01586004150561669; 0.0010845933103932888; 0.0003649669017257464; (-0.0003649669017256901);
   (-0.0023054189200840836); 0.002305418920084103; 0.0027199096222439603; (-0.0027199096222439278); 0.000000000000000025645406025218926; (-0.0002266085270595203); 0.00022660852705955556; 0.000000000000000009862559338517696;
   0.0009013624979273097; 0.0020192777630059972; (-0.002019277763006001); (-0.0009013624979272819); (-0.0013796659026302166); 0.0013796659026302594; 0.00021430922973553055; 0.00010715461486776472;
   0.016666666666666666; (-0.0014274953678260257); (-0.0010625284661002967); (-0.00013608872699375814); (-0.002441507647077828); (-0.001143173443701102); 0.0020001976214611182; 0.0003857856031009969;
   (-0.002457584662640307); 0.002931396455521253; (-0.0002098353856334073); (-0.018317626168257002); (-0.0006988077072922683); (-0.0037887573463723147); 0.0013870836087764272; 0.004106993231020405;
   (-0.00025995458963033545); (-0.0022192603521329585); (-0.0024458688791924492); 0.003502056931446769; 0.002122391028816546; 0.00406962589694205; (-0.003937719151690417); (-0.001918441388684442);
   0.0049709883948693065; 0.0020001976214610757; (-0.0009333380580676642); 0.0014274953678260257; (-0.13871459425887162); 0.006473745934156847; (-0.0033169754069413988); (-0.00098079890084699);
   (-0.0016010243230390646); (-0.013406258979827751); 0.016296838341511233; 0.0011267775288161877; 0.0006701644592236799; 0.011021591909393039; (-0.0010163287730643564); (-0.013473233460674366);
   (-0.006848374682493507); 0.020575368740190666; (-0.031779282376414794); (-0.0019463808076739236); (-0.028499674038401267); (-0.0195923217670389); 0.039401155588559444; 0.14560583997570925;
   0.027989675864102618; 0.002777537730447844; (-0.016421749883660786); 0.003163946655618978; (-0.001143173443701099); (-0.0009311988340601574); 0.0010625284661002967; (-0.006473745934156847);
   (-0.13871459425887162); 0.002079782053291932; 0.0128305547143688; 0.02204318381878605; (-0.0016010243230391123); (-0.025321988694347507); (-0.0019400501161104921); (-0.0067031294899138755);
   (-0.002271188782262659); 0.00018590475184162818; 0.012079618660282196; (-0.001145076498881371); (-0.023629618313098934); 0.04363862641307957; 0.006941696271421641; (-0.014011459982046774);
   (-0.02447312951202801); 0.13870501152320816; 0.024780982022544976; 0.004141743207515297; (-0.03589350331953352); 0.005335933260290136; 0.010427316339320978; (-0.002457584662640309);
   0.0010845933103932756; 0.00013608872699375814; 0.0033169754069413988; (-0.002079782053291932); (-0.09461873907446174); (-0.0006557136562592619); (-0.0019400501161105246); 0.0011267775288160968;
   (-0.009320141595329477); 0.009393252616802327; 0.004217219681229142; (-0.011848755233673148); (-0.0015231703437220117); 0.009771477569032827; (-0.019712388090481238); 0.10434946475609558;
   0.017023401641193307; 0.008103766559551882; (-0.015836324744864554); (-0.0038937105748518487); (-0.01676188923921561); 0.025424064325642797; (-0.006094640992839613); 0.007328466061071734;
   (-0.02837583562005467); 0.02384317781403141; 0.0003857856031010284; 0.015860041505616727; 0.002441507647077828; 0.00098079890084699; (-0.0128305547143688); 0.0006557136562592619;
   (-0.09461873907446174); (-0.02532198869434761); 0.016296838341511355; 0.019542955138065598; (-0.009320141595329484); 0.0009408727769743286; (-0.0009237213430462553); 0.004696626308401187;
   (-0.007796971251607502); (-0.005688384170684926); 0.012516197432372141; 0.09046447414260292; 0.004139562239565793; (-0.0004629177344883388); (-0.010914074305276493); 0.016005178341724907;
   (-0.013376958271813798); 0.006036201975910506; (-0.00935552956689647); 0.005876263156212895; (-0.0062290364439228415); (-0.0010625284661002303); 0.0009311988340601749; 0.001143173443701102;
   0.0016010243230390646; (-0.02204318381878605); 0.0019400501161105246; 0.02532198869434761; 0.13871459425887162; 0.006473745934156696; (-0.012830554714368872); (-0.0020797820532918784);
   0.0022711887822627445; 0.006703129489913905; (-0.012079618660282211); (-0.00018590475184175056); 0.02362961831309886; 0.0011450764988813625; (-0.04363862641307953); 0.014011459982046923;
   (-0.0069416962714217425); 0.024473129512028128; 0.0358935033195335; (-0.0041417432075152565); (-0.024780982022544938); (-0.1387050115232083); (-0.01042731633932096); (-0.00533593326029025);
   (-0.0014274953678259632); 0.0009333380580676975; (-0.0020001976214611182); 0.013406258979827751; 0.0016010243230391123; (-0.0011267775288160968); (-0.016296838341511355); (-0.006473745934156696);
   0.13871459425887162; 0.0009807989008469343; 0.0033169754069413333; (-0.011021591909393046); (-0.000670164459223631); 0.01347323346067442; 0.0010163287730642525; (-0.020575368740190586);
   0.006848374682493637; 0.03177928237641469; 0.02849967403840122; 0.0019463808076737898; 0.019592321767039025; (-0.002777537730447691); (-0.027989675864102653); (-0.14560583997570928);
   (-0.03940115558855918); (-0.0031639466556189506); 0.01642174988366085; (-0.002441507647077841); (-0.01586004150561669); (-0.0003857856031009969); (-0.016296838341511233); 0.025321988694347507;
   0.009320141595329477; (-0.019542955138065598); 0.012830554714368872; (-0.0009807989008469343); 0.09461873907446174; (-0.000655713656259332); 0.0009237213430463038; (-0.0009408727769744955);
   0.007796971251607463; (-0.00469662630840113); (-0.01251619743237219); 0.005688384170684784; (-0.09046447414260303); 0.00046291773448827985; (-0.004139562239565948); 0.010914074305276418;
   0.00935552956689625; (-0.006036201975910495); 0.013376958271813743; (-0.016005178341725042); 0.006229036443922733; (-0.0058762631562129675); (-0.00013608872699373182); (-0.0010845933103932888);
   0.002457584662640307; (-0.0011267775288161877); 0.0019400501161104921; (-0.009393252616802327); 0.009320141595329484; 0.0020797820532918784; (-0.0033169754069413333); 0.000655713656259332;
   0.09461873907446174; 0.011848755233673075; (-0.004217219681229097); (-0.009771477569032811); 0.0015231703437220353; (-0.1043494647560958); 0.01971238809048111; (-0.0170234016411933);
   0.015836324744864468; (-0.008103766559552004); 0.003893710574851803; (-0.007328466061071719); 0.006094640992839595; (-0.02542406432564282); 0.016761889239215576; (-0.02384317781403148);
   0.028375835620054628; (-0.00020983538563342465); (-0.0003649669017257464); (-0.002931396455521253); (-0.0006701644592236799); 0.0067031294899138755; (-0.004217219681229142); (-0.0009408727769743286);
   (-0.0022711887822627445); 0.011021591909393046; (-0.0009237213430463038); (-0.011848755233673075); 0.0; (-0.012947491868313466); 0.01614753012131022; 0.0030605809541389907;
   0.023063257672889005; 0.008149664063315869; 0.005703298183612329; 0.004026544526373254; 0.0055808617849920725; 0.008888077079095657; (-0.01756235952478159); 0.0025583955298422957;
   (-0.019471753435872464); 0.000977796551896291; (-0.014620173566014284); (-0.006900828452501023); 0.002931396455521299; 0.0003649669017256901; 0.0002098353856334073; (-0.011021591909393039);
   0.002271188782262659; 0.011848755233673148; 0.0009237213430462553; (-0.006703129489913905); 0.000670164459223631; 0.0009408727769744955; 0.004217219681229097; 0.012947491868313466;
   0.0; (-0.0030605809541388055); (-0.016147530121310354); (-0.008149664063315696); (-0.023063257672889168); (-0.005703298183612243); (-0.005580861784992243); (-0.004026544526373217);
   (-0.008888077079095573); (-0.0009777965518963114); 0.019471753435872596; (-0.002558395529842422); 0.01756235952478152; 0.006900828452500944; 0.014620173566014473; (-0.0006988077072922343);
   0.0023054189200840836; 0.018317626168257002; 0.0010163287730643564; (-0.00018590475184162818); 0.0015231703437220117; (-0.004696626308401187); 0.012079618660282211; (-0.01347323346067442);
   (-0.007796971251607463); 0.009771477569032811; (-0.01614753012131022); 0.0030605809541388055; 0.0; 0.0013114273125184501; (-0.013884990613492748); (-0.004507204208821276);
   0.01402400391979616; 0.004922250439588125; 0.003430792840363516; (-0.0039642043199860895); (-0.00013439545108318726); (-0.0014522029048585547); 0.019020306053158336; (-0.017806975838120992);
   0.003384930967401827; (-0.009418885983917867); (-0.018317626168257002); (-0.002305418920084103); 0.0006988077072922683; 0.013473233460674366; (-0.012079618660282196); (-0.009771477569032827);
   0.007796971251607502; 0.00018590475184175056; (-0.0010163287730642525); 0.00469662630840113; (-0.0015231703437220353); (-0.0030605809541389907); 0.016147530121310354; (-0.0013114273125184501);
   0.0; 0.004507204208821335; 0.013884990613492753; (-0.014024003919796272); (-0.003430792840363577); (-0.0049222504395881675); 0.0039642043199860436; 0.01780697583812103;
   (-0.019020306053158333); 0.0014522029048588089; 0.00013439545108326586; 0.00941888598391777; (-0.003384930967401821); 0.0013870836087764233; (-0.0027199096222439603); 0.0037887573463723147;
   0.006848374682493507; 0.001145076498881371; 0.019712388090481238; 0.005688384170684926; (-0.02362961831309886); 0.020575368740190586; 0.01251619743237219; 0.1043494647560958;
   (-0.023063257672889005); 0.008149664063315696; 0.013884990613492748; (-0.004507204208821335); 0.0; (-0.045799395708653476); (-0.022899697854327068); (-0.04275618813056693);
   0.020758374750440994; 0.011262660228597504; (-0.000738683158264281); (-0.019454036808605437); (-0.03029397807235787); 0.03611856769923749; 0.06655434938302264; (-0.11687773251462677);
   (-0.003788757346372296); 0.0027199096222439278; (-0.0013870836087764272); (-0.020575368740190666); 0.023629618313098934; (-0.10434946475609558); (-0.012516197432372141); (-0.0011450764988813625);
   (-0.006848374682493637); (-0.005688384170684784); (-0.01971238809048111); (-0.008149664063315869); 0.023063257672889168; 0.004507204208821276; (-0.013884990613492753); 0.045799395708653476;
   0.0; 0.02289969785432689; (-0.020758374750440834); 0.04275618813056695; (-0.011262660228597059); (-0.03611856769923738); 0.030293978072357994; 0.01945403680860565;
   0.0007386831582644378; 0.11687773251462655; (-0.06655434938302261); 0.0041069932310203745; (-0.000000000000000025645406025218926); (-0.004106993231020405); 0.031779282376414794; (-0.04363862641307957);
   (-0.017023401641193307); (-0.09046447414260292); 0.04363862641307953; (-0.03177928237641469); 0.09046447414260303; 0.0170234016411933; (-0.005703298183612329); 0.005703298183612243;
   (-0.01402400391979616); 0.014024003919796272; 0.022899697854327068; (-0.02289969785432689); 0.0; (-0.009495714521843517); 0.009495714521843834; (-0.00000000000000017186202124253343);
   (-0.08658375444226873); 0.030435781683785062; (-0.03043578168378506); 0.08658375444226861; (-0.018715353650340886); 0.018715353650341115; (-0.002219260352132909); 0.0002266085270595203;
   0.00025995458963033545; 0.0019463808076739236; (-0.006941696271421641); (-0.008103766559551882); (-0.004139562239565793); (-0.014011459982046923); (-0.02849967403840122); (-0.00046291773448827985);
   (-0.015836324744864468); (-0.004026544526373254); 0.005580861784992243; (-0.004922250439588125); 0.003430792840363577; 0.04275618813056693; 0.020758374750440834; 0.009495714521843517;
   0.0; (-0.1177451846879524); (-0.058872592343976245); 0.017805391831407044; 0.018995331690680798; 0.14999542551494982; 0.019107826043932866; (-0.03177303843753363);
   0.007195421324355586; (-0.000259954589630329); (-0.00022660852705955556); 0.0022192603521329585; 0.028499674038401267; 0.014011459982046774; 0.015836324744864554; 0.0004629177344883388;
   0.0069416962714217425; (-0.0019463808076737898); 0.004139562239565948; 0.008103766559552004; (-0.0055808617849920725); 0.004026544526373217; (-0.003430792840363516); 0.0049222504395881675;
   (-0.020758374750440994); (-0.04275618813056695); (-0.009495714521843834); 0.1177451846879524; 0.0; 0.05887259234397629; (-0.019107826043933004); (-0.14999542551495004);
   (-0.0189953316906807); (-0.017805391831407134); (-0.0071954213243555845); 0.031773038437533374; (-0.002445868879192446); (-0.000000000000000009862559338517696); 0.0024458688791924492; 0.0195923217670389;
   0.02447312951202801; 0.0038937105748518487; 0.010914074305276493; (-0.024473129512028128); (-0.019592321767039025); (-0.010914074305276418); (-0.003893710574851803); (-0.008888077079095657);
   0.008888077079095573; 0.0039642043199860895; (-0.0039642043199860436); (-0.011262660228597504); 0.011262660228597059; 0.00000000000000017186202124253343; 0.058872592343976245; (-0.05887259234397629);
   0.0; (-0.14280000419059447); (-0.05088086448146637); 0.050880864481466594; 0.14280000419059438; 0.0011899398592735016; (-0.0011899398592732193); (-0.003937719151690449);
   (-0.0009013624979273097); (-0.003502056931446769); (-0.039401155588559444); (-0.13870501152320816); 0.01676188923921561; (-0.016005178341724907); (-0.0358935033195335); 0.002777537730447691;
   (-0.00935552956689625); 0.007328466061071719; 0.01756235952478159; 0.0009777965518963114; 0.00013439545108318726; (-0.01780697583812103); 0.000738683158264281; 0.03611856769923738;
   0.08658375444226873; (-0.017805391831407044); 0.019107826043933004; 0.14280000419059447; 0.0; (-0.05628614169034522); (-0.012895704348313783); 0.05307641758784664;
   (-0.005765462619022605); (-0.025706504432444047); 0.004069625896941998; (-0.0020192777630059972); (-0.002122391028816546); (-0.14560583997570925); (-0.024780982022544976); (-0.025424064325642797);
   0.013376958271813798; 0.0041417432075152565; 0.027989675864102653; 0.006036201975910495; (-0.006094640992839595); (-0.0025583955298422957); (-0.019471753435872596); 0.0014522029048585547;
   0.019020306053158333; 0.019454036808605437; (-0.030293978072357994); (-0.030435781683785062); (-0.018995331690680798); 0.14999542551495004; 0.05088086448146637; 0.05628614169034522;
   0.0; (-0.05141300886488829); (-0.01289570434831389); 0.02653820879392322; (-0.007130241729291295); 0.002122391028816585; 0.002019277763006001; (-0.00406962589694205);
   (-0.027989675864102618); (-0.004141743207515297); 0.006094640992839613; (-0.006036201975910506); 0.024780982022544938; 0.14560583997570928; (-0.013376958271813743); 0.02542406432564282;
   0.019471753435872464; 0.002558395529842422; (-0.019020306053158336); (-0.0014522029048588089); 0.03029397807235787; (-0.01945403680860565); 0.03043578168378506; (-0.14999542551494982);
   0.0189953316906807; (-0.050880864481466594); 0.012895704348313783; 0.05141300886488829; 0.0; (-0.05628614169034501); 0.007130241729291384; (-0.026538208793922987);
   0.003502056931446821; 0.0009013624979272819; 0.003937719151690417; (-0.002777537730447844); 0.03589350331953352; (-0.007328466061071734); 0.00935552956689647; 0.1387050115232083;
   0.03940115558855918; 0.016005178341725042; (-0.016761889239215576); (-0.000977796551896291); (-0.01756235952478152); 0.017806975838120992; (-0.00013439545108326586); (-0.03611856769923749);
   (-0.0007386831582644378); (-0.08658375444226861); (-0.019107826043932866); 0.017805391831407134; (-0.14280000419059438); (-0.05307641758784664); 0.01289570434831389; 0.05628614169034501;
   0.0; 0.02570650443244409; 0.005765462619022355; 0.004970988394869329; 0.0013796659026302166; 0.001918441388684442; 0.016421749883660786; (-0.005335933260290136);
   0.02837583562005467; (-0.005876263156212895); 0.01042731633932096; 0.0031639466556189506; (-0.006229036443922733); 0.02384317781403148; 0.014620173566014284; (-0.006900828452500944);
   (-0.003384930967401827); (-0.00941888598391777); (-0.06655434938302264); (-0.11687773251462655); 0.018715353650340886; 0.03177303843753363; 0.0071954213243555845; (-0.0011899398592735016);
   0.005765462619022605; (-0.02653820879392322); (-0.007130241729291384); (-0.02570650443244409); 0.0; 0.11257228338069038; (-0.0019184413886844376); (-0.0013796659026302594);
   (-0.0049709883948693065); (-0.003163946655618978); (-0.010427316339320978); (-0.02384317781403141); 0.0062290364439228415; 0.00533593326029025; (-0.01642174988366085); 0.0058762631562129675;
   (-0.028375835620054628); 0.006900828452501023; (-0.014620173566014473); 0.009418885983917867; 0.003384930967401821; 0.11687773251462677; 0.06655434938302261; (-0.018715353650341115);
   (-0.007195421324355586); (-0.031773038437533374); 0.0011899398592732193; 0.025706504432444047; 0.007130241729291295; 0.026538208793922987; (-0.005765462619022355); (-0.11257228338069038);
   0.0].
(** sbp_operators.hpp:2616-2631 *)
Definition p0Qx_tet : list Q :=
  [(-0.08333333333333333); 0.027664803919543374; (-0.002408419506518506); 0.05807694892030849; (-0.027664803919543374); 0.08333333333333333; (-0.058076948907272594); 0.002408419493482642;
   0.002408419506518506; 0.058076948907272594; 0.0; (-0.060485368413791075); (-0.05807694892030849); (-0.002408419493482642); 0.060485368413791075; 0.0].
(** sbp_operators.hpp:2632-2647 *)
Definition p0Qy_tet : list Q :=
  [(-0.08333333333333333); 0.05807694910757552; 0.027664803716480602; (-0.0024084194907227595); (-0.05807694910757552); 0.0; (-0.0024084194889191952); 0.0604853685964947;
   (-0.027664803716480602); 0.0024084194889191952; 0.08333333333333333; (-0.05807694910577195); 0.0024084194907227595; (-0.0604853685964947); 0.05807694910577195; 0.0].
(** sbp_operators.hpp:2648-2663 *)
Definition p0Qz_tet : list Q :=
  [(-0.08333333333333333); (-0.00240841948876434); 0.0580769491070014; 0.027664803715096296; 0.00240841948876434; 0.0; (-0.060485368596382726); 0.05807694910761839;
   (-0.0580769491070014); 0.060485368596382726; 0.0; (-0.002408419489381343); (-0.027664803715096296); (-0.05807694910761839); 0.002408419489381343; 0.08333333333333333].
(** sbp_operators.hpp:2664-2965 *)
Definition p1Qx_tet : list Q :=
  [(-0.0125); (-0.00482470454326092); (-0.00370106352336937); (-0.00427639133538245); 0.00479832971081897; (-0.00218662933728057); (-0.00218662952191198); (-0.00489555450071483);
   (-0.00489555464611378); (-0.00334575162898196); 0.00915537420694082; 0.00804684793909538; 0.0112688555556227; 0.00954287162453792; 0.00482470454326092; 0.0125;
   0.00410560127012178; 0.00353027311512603; (-0.00478789900586332); 0.00489555462985242; 0.00489555475654803; 0.00218662934422881; 0.00218662948847187; 0.00369254748438709;
   (-0.00804684782224075); (-0.00915537448918177); (-0.00955069462806578); (-0.0112766786866451); 0.00370106352336937; (-0.00410560127012178); 0.0; 0.00464769866603319;
   (-0.00237059941145543); (-0.00414375950797223); (-0.000814783801639115); 0.00868236294201879; (-0.00620667161353033); (-0.00463067114449333); 0.0133542567096031; (-0.0149220229203292);
   0.00510286005212067; 0.00170586777639619; 0.00427639133538245; (-0.00353027311512603); (-0.00464769866603319); 0.0; 0.00425242924877547; 0.00624866535639526;
   (-0.00767613235222012); 0.000856777682594159; 0.00514998947629652; 0.00455637620136384; 0.0155839108214491; (-0.0126923685046115); (-0.00593689230499812); (-0.00644117517926811);
   (-0.00479832971081897); 0.00478789900586332; 0.00237059941145543; (-0.00425242924877547); 0.0; 0.000369526470464492; 0.000693085855587988; (-0.000725094216443407);
   (-0.000401535901849275); 0.00191283058405808; (-0.00076780583506509); 0.000727382532753602; 0.0094911402419429; (-0.00940726918917346); 0.00218662933728057; (-0.00489555462985242);
   0.00414375950797223; (-0.00624866535639526); (-0.000369526470464492); (-0.0333333333333333); (-0.0000000000387535464263229); 0.00143808768927452; (-0.0116530120364997); 0.00853921148266645;
   0.00818781915397483; (-0.00236075332584197); 0.0175896311299331; 0.016775706890039; 0.00218662952191198; (-0.00489555475654803); 0.000814783801639115; 0.00767613235222012;
   (-0.000693085855587988); 0.0000000000387535464263229; (-0.0333333333333333); (-0.0116530121887156); 0.00143808824016853; (-0.00221839019581827); 0.00818781927364948; (-0.00236075365839198);
   0.0223149902615567; 0.0125356864984956; 0.00489555450071483; (-0.00218662934422881); (-0.00868236294201879); (-0.000856777682594159); 0.000725094216443407; (-0.00143808768927452);
   0.0116530121887156; 0.0333333333333333; 0.000000000191830376561862; 0.00328261853743509; 0.00236075332347016; (-0.00818781878848732); (-0.0140060478641719); (-0.0208926419811672);
   0.00489555464611378; (-0.00218662948847187); 0.00620667161353033; (-0.00514998947629652); 0.000401535901849275; 0.0116530120364997; (-0.00143808824016853); (-0.000000000191830376561862);
   0.0333333333333333; (-0.00747498296704642); 0.00236075337595459; (-0.00818781912575506); (-0.0153533590104874); (-0.0190599924072247); 0.00334575162898196; (-0.00369254748438709);
   0.00463067114449333; (-0.00455637620136384); (-0.00191283058405808); (-0.00853921148266645); 0.00221839019581827; (-0.00328261853743509); 0.00747498296704642; 0.0;
   0.0139903824920123; (-0.015334370389116); 0.000473056756898182; 0.00518471949377605; (-0.00915537420694082); 0.00804684782224075; (-0.0133542567096031); (-0.0155839108214491);
   0.00076780583506509; (-0.00818781915397483); (-0.00818781927364948); (-0.00236075332347016); (-0.00236075337595459); (-0.0139903824920123); 0.1125; (-0.0164350479399813);
   (-0.0125047868832466); (-0.0191937494770234); (-0.00804684793909538); 0.00915537448918177; 0.0149220229203292; 0.0126923685046115; (-0.000727382532753602); 0.00236075332584197;
   0.00236075365839198; 0.00818781878848732; 0.00818781912575506; 0.015334370389116; 0.0164350479399813; (-0.1125); 0.0191634317862896; 0.0124744695438632;
   (-0.0112688555556227); 0.00955069462806578; (-0.00510286005212067); 0.00593689230499812; (-0.0094911402419429); (-0.0175896311299331); (-0.0223149902615567); 0.0140060478641719;
   0.0153533590104874; (-0.000473056756898182); 0.0125047868832466; (-0.0191634317862896); 0.0; 0.028052185093394; (-0.00954287162453792); 0.0112766786866451;
   (-0.00170586777639619); 0.00644117517926811; 0.00940726918917346; (-0.016775706890039); (-0.0125356864984956); 0.0208926419811672; 0.0190599924072247; (-0.00518471949377605);
   0.0191937494770234; (-0.0124744695438632); (-0.028052185093394); 0.0].
(** sbp_operators.hpp:2966-3164 *)
Definition p1Qy_tet : list Q :=
  [(-0.0125); (-0.0041083038630692); (-0.00482470448349789); (-0.00353253113283191); (-0.0021866293082737); 0.00478805056887288; (-0.0021866294668903); (-0.00489555460092534);
   (-0.00368751111269982); (-0.00489555462018875); 0.00915537431337163; 0.0095499138974482; 0.00804684798734417; 0.01127723182134; 0.0041083038630692; 0.0;
   (-0.00369836087194351); 0.00489231989875532; (-0.00289899419380928); 0.0021090588344175; 0.00043988928702493; 0.00992712825741266; (-0.00505618160386199); (-0.0049519984642153);
   0.0149324960771121; (-0.0019132363172374); (-0.0133437832845621); (-0.00454664148216209); 0.00482470448349789; 0.00369836087194351; 0.0125; 0.00427413350568061;
   0.00489555460975357; (-0.00479817820675599); 0.00489555460317817; 0.00218662933985696; 0.0033507878983699; 0.0021866294157423; (-0.00804684795820531); (-0.0112696361334657);
   (-0.0091553743013063); (-0.00954231812828958); 0.00353253113283191; (-0.00489231989875532); (-0.00427413350568061); 0.0; 0.00397499273219414; (-0.00393623286913781);
   (-0.00996790260579586); (-0.00141689492546076); 0.00512831960094997; 0.00285821962666314; 0.0127011185998819; 0.00584608712745025; (-0.0155751606600581); 0.006021375644917;
   0.0021866293082737; 0.00289899419380928; (-0.00489555460975357); (-0.00397499273219414); (-0.0333333333333333); (-0.000400945797673331); 0.00000000000227731360516199; 0.00143808770508615;
   0.00749459467080574; (-0.011653012112852); 0.00818781899513648; 0.0123355388508199; (-0.0023607534897205); 0.0220769283493183; (-0.00478805056887288); (-0.0021090588344175);
   0.00479817820675599; 0.00393623286913781; 0.000400945797673331; 0.0; 0.000724754895249042; (-0.000693675161628886); (-0.00185727461241913); (-0.000369866637261323);
   (-0.00072796956359625); (-0.009594368422031); 0.000767218909860988; 0.00951293312154982; 0.0021866294668903; (-0.00043988928702493); (-0.00489555460317817); 0.00996790260579586;
   (-0.00000000000227731360516199); (-0.000724754895249042); (-0.0333333333333333); (-0.0116530121294682); (-0.00327132177012773); 0.00143808794484017; 0.00818781911536902; 0.0170190772892477;
   (-0.00236075348407298); 0.0178791030825886; 0.00489555460092534; (-0.00992712825741266); (-0.00218662933985696); 0.00141689492546076; (-0.00143808770508615); 0.000693675161628886;
   0.0116530121294682; 0.0333333333333333; 0.00223800182897614; 0.0000000000745347663254868; 0.00236075348767605; (-0.0192601403383746); (-0.00818781897515233); (-0.0155914209261207);
   0.00368751111269982; 0.00505618160386199; (-0.0033507878983699); (-0.00512831960094997); (-0.00749459467080574); 0.00185727461241913; 0.00327132177012773; (-0.00223800182897614);
   0.0; 0.0085279144541261; 0.0153148534094334; (-0.00361884949221983); (-0.0140098994507443); (-0.00187460402060219); 0.00489555462018875; 0.0049519984642153;
   (-0.0021866294157423); (-0.00285821962666314); 0.011653012112852; 0.000369866637261323; (-0.00143808794484017); (-0.0000000000745347663254868); (-0.0085279144541261); 0.0333333333333333;
   0.002360753474387; (-0.0206492718830116); (-0.00818781911293655); (-0.013716576130383); (-0.00915537431337163); (-0.0149324960771121); 0.00804684795820531; (-0.0127011185998819);
   (-0.00818781899513648); 0.00072796956359625; (-0.00818781911536902); (-0.00236075348767605); (-0.0153148534094334); (-0.002360753474387); 0.1125; (-0.0191664571191392);
   (-0.0164350480824309); (-0.0124723248478638); (-0.0095499138974482); 0.0019132363172374; 0.0112696361334657; (-0.00584608712745025); (-0.0123355388508199); 0.009594368422031;
   (-0.0170190772892477); 0.0192601403383746; 0.00361884949221983; 0.0206492718830116; 0.0191664571191392; 0.0; (-0.012501761865764); (-0.0282195806747492);
   (-0.00804684798734417); 0.0133437832845621; 0.0091553743013063; 0.0155751606600581; 0.0023607534897205; (-0.000767218909860988); 0.00236075348407298; 0.00818781897515233;
   0.0140098994507443; 0.00818781911293655; 0.0164350480824309; 0.012501761865764; (-0.1125); 0.019195894190457; (-0.01127723182134); 0.00454664148216209;
   0.00954231812828958; (-0.006021375644917); (-0.0220769283493183); (-0.00951293312154982); (-0.0178791030825886); 0.0155914209261207; 0.00187460402060219; 0.013716576130383;
   0.0124723248478638; 0.0282195806747492; (-0.019195894190457); 0.0].
(** sbp_operators.hpp:3165-3363 *)
Definition p1Qz_tet : list Q :=
  [(-0.0125); (-0.0042971959698583); (-0.0037266876029765); (-0.00482470446119515); (-0.00218662940232346); (-0.00218662948945871); 0.00479974769703676; (-0.00329861385835467);
   (-0.00489555475992168); (-0.00489555465346741); 0.00915537431170531; 0.00954903756004457; 0.0112605626896684; 0.0080468479391008; 0.0042971959698583; 0.0;
   0.00484758973070147; (-0.00350946864721291); (-0.00288421707812361); 0.0015844384683186; 0.00419171017641314; (-0.0050929388515594); 0.00994190512662047; (-0.0038074491237607);
   0.0156645380915361; (-0.00662164197584912); (-0.0059999208396532); (-0.012611741047289); 0.0037266876029765; (-0.00484758973070147); 0.0; (-0.00407997718110572);
   0.00508722082880033; (-0.00988849514291251); (-0.00179830973938562); 0.0049984460995608; (-0.000304666882824616); 0.00293762737390209; 0.0134535621036773; 0.00429778764789062;
   0.00124042426751577; (-0.0148227172473935); 0.00482470446119515; 0.00350946864721291; 0.00407997718110572; 0.0125; 0.00489555465838272; 0.0048955544495757;
   (-0.0047864810888711); 0.00373968512898683; 0.00218662927614421; 0.00218662924382205; (-0.00804684794203352); (-0.0112705124206448); (-0.00955898718066015); (-0.00915537441421583);
   0.00218662940232346; 0.00288421707812361; (-0.00508722082880033); (-0.00489555465838272); (-0.0333333333333333); 0.000000000141737131905371; (-0.000366531416522303); 0.00863880692122691;
   0.00143808802769588; (-0.0116530120982812); 0.00818781911686072; 0.013955904421968; 0.0204049407248363; (-0.00236075349945202); 0.00218662948945871; (-0.0015844384683186);
   0.00988849514291251; (-0.0048955544495757); (-0.000000000141737131905371); (-0.0333333333333333); (-0.000687379615990328); (-0.00202867722076605); (-0.0116530121792696); 0.001438087666496;
   0.00818781899976371; 0.0153933333925086; 0.0194487842074561; (-0.00236075348960477); (-0.00479974769703676); (-0.00419171017641314); 0.00179830973938562; 0.0047864810888711;
   0.000366531416522303; 0.000687379615990328; 0.0; 0.0024328283938186; (-0.000728089888076899); (-0.000407241477069607); (-0.000773300500477665); (-0.00941296666183497);
   0.00951963800127432; 0.000721888145046647; 0.00329861385835467; 0.0050929388515594; (-0.0049984460995608); (-0.00373968512898683); (-0.00863880692122691); 0.00202867722076605;
   (-0.0024328283938186); 0.0; (-0.00338221434799356); 0.00728527002501118; 0.0138077024273955; 0.00273376558674303; 0.00446206350587883; (-0.0155170505841219);
   0.00489555475992168; (-0.00994190512662047); 0.000304666882824616; (-0.00218662927614421); (-0.00143808802769588); 0.0116530121792696; 0.000728089888076899; 0.00338221434799356;
   0.0333333333333333; (-0.0000000000763619467138155); 0.00236075351249915; (-0.017639774784012); (-0.0172634085597715); (-0.00818781905331274); 0.00489555465346741; 0.0038074491237607;
   (-0.00293762737390209); (-0.00218662924382205); 0.0116530120982812; (-0.001438087666496); 0.000407241477069607; (-0.00728527002501118); 0.0000000000763619467138155; 0.0333333333333333;
   0.00236075342849681; (-0.0222750158573128); (-0.0121468951120099); (-0.00818781891221697); (-0.00915537431170531); (-0.0156645380915361); (-0.0134535621036773); 0.00804684794203352;
   (-0.00818781911686072); (-0.00818781899976371); 0.000773300500477665; (-0.0138077024273955); (-0.00236075351249915); (-0.00236075342849681); 0.1125; (-0.0191698533103178);
   (-0.0125369250450925); (-0.0164350480951662); (-0.00954903756004457); 0.00662164197584912; (-0.00429778764789062); 0.0112705124206448; (-0.013955904421968); (-0.0153933333925086);
   0.00941296666183497; (-0.00273376558674303); 0.017639774784012; 0.0222750158573128; 0.0191698533103178; 0.0; (-0.0279615707170791); (-0.0124983656837377);
   (-0.0112605626896684); 0.0059999208396532; (-0.00124042426751577); 0.00955898718066015; (-0.0204049407248363); (-0.0194487842074561); (-0.00951963800127432); (-0.00446206350587883);
   0.0172634085597715; 0.0121468951120099; 0.0125369250450925; 0.0279615707170791; 0.0; (-0.0191312940576368); (-0.0080468479391008); 0.012611741047289;
   0.0148227172473935; 0.00915537441421583; 0.00236075349945202; 0.00236075348960477; (-0.000721888145046647); 0.0155170505841219; 0.00818781905331274; 0.00818781891221697;
   0.0164350480951662; 0.0124983656837377; 0.0191312940576368; (-0.1125)].
(** SBPTriangleElement nodes (coordinates, weight), sbp_fe.cpp:661-668 *)
Definition nodes_tri0 : list (list Q * Q) :=
  [([0.0; 0.0], 0.16666666666666666); ([1.0; 0.0], 0.16666666666666666);
   ([0.0; 1.0], 0.16666666666666666)].
(** SBPTriangleElement nodes (coordinates, weight), sbp_fe.cpp:669-683 *)
Definition nodes_tri1 : list (list Q * Q) :=
  [([0.0; 0.0], 0.024999999999999998); ([1.0; 0.0], 0.024999999999999998);
   ([0.0; 1.0], 0.024999999999999998); ([0.5; 0.0], 0.06666666666666667);
   ([0.5; 0.5], 0.06666666666666667); ([0.0; 0.5], 0.06666666666666667);
   ([0.3333333333333333; 0.3333333333333333], 0.22500000000000006)].
(** SBPTriangleElement nodes (coordinates, weight), sbp_fe.cpp:684-707 *)
Definition nodes_tri2 : list (list Q * Q) :=
  [([0.0; 0.0], 0.006261126504899741); ([1.0; 0.0], 0.006261126504899741);
   ([0.0; 1.0], 0.006261126504899741); ([0.27639320225002106; 0.0], 0.026823800250389242);
   ([0.7236067977499789; 0.0], 0.026823800250389242); ([0.7236067977499789; 0.27639320225002106], 0.026823800250389242);
   ([0.27639320225002106; 0.7236067977499789], 0.026823800250389242); ([0.0; 0.7236067977499789], 0.026823800250389242);
   ([0.0; 0.27639320225002106], 0.026823800250389242); ([0.21285435711180825; 0.5742912857763836], 0.10675793966098839);
   ([0.21285435711180825; 0.21285435711180825], 0.10675793966098839); ([0.5742912857763836; 0.21285435711180825], 0.10675793966098839)].
(** SBPTriangleElement nodes (coordinates, weight), sbp_fe.cpp:708-740 *)
Definition nodes_tri3 : list (list Q * Q) :=
  [([0.0; 0.0], 0.0022825661430496253); ([1.0; 0.0], 0.0022825661430496253);
   ([0.0; 1.0], 0.0022825661430496253); ([0.5; 0.0], 0.015504052643022513);
   ([0.17267316464601146; 0.0], 0.011342592592592586); ([0.8273268353539885; 0.0], 0.011342592592592586);
   ([0.5; 0.5], 0.015504052643022513); ([0.8273268353539885; 0.17267316464601146], 0.011342592592592586);
   ([0.17267316464601146; 0.8273268353539885], 0.011342592592592586); ([0.0; 0.5], 0.015504052643022513);
   ([0.0; 0.8273268353539885], 0.011342592592592586); ([0.0; 0.17267316464601146], 0.011342592592592586);
   ([0.4243860251718814; 0.1512279496562372], 0.07467669469983994); ([0.4243860251718814; 0.4243860251718814], 0.07467669469983994);
   ([0.1512279496562372; 0.4243860251718814], 0.07467669469983994); ([0.14200508409677795; 0.7159898318064442], 0.051518167995569394);
   ([0.14200508409677795; 0.14200508409677795], 0.051518167995569394); ([0.7159898318064442; 0.14200508409677795], 0.051518167995569394)].
(** SBPTriangleElement nodes (coordinates, weight), sbp_fe.cpp:741-802 *)
Definition nodes_tri4 : list (list Q * Q) :=
  [([0.000000000000000000; 0.000000000000000000], 0.001090393904993471); ([1.000000000000000000; 0.000000000000000000], 0.001090393904993471);
   ([0.000000000000000000; 1.000000000000000000], 0.001090393904993471); ([0.357384241759677534; 0.000000000000000000], 0.006966942871463700);
   ([0.642615758240322466; 0.000000000000000000], 0.006966942871463700); ([0.117472338035267576; 0.000000000000000000], 0.005519747637357106);
   ([0.882527661964732424; 0.000000000000000000], 0.005519747637357106); ([0.642615758240322466; 0.357384241759677534], 0.006966942871463700);
   ([0.357384241759677534; 0.642615758240322466], 0.006966942871463700); ([0.882527661964732424; 0.117472338035267576], 0.005519747637357106);
   ([0.117472338035267576; 0.882527661964732424], 0.005519747637357106); ([0.000000000000000000; 0.642615758240322466], 0.006966942871463700);
   ([0.000000000000000000; 0.357384241759677534], 0.006966942871463700); ([0.000000000000000000; 0.882527661964732424], 0.005519747637357106);
   ([0.000000000000000000; 0.117472338035267576], 0.005519747637357106); ([0.103677508142805172; 0.792644983714389628], 0.028397190663911491);
   ([0.103677508142805172; 0.103677508142805172], 0.028397190663911491); ([0.792644983714389628; 0.103677508142805172], 0.028397190663911491);
   ([0.265331380484209678; 0.469337239031580644], 0.039960048027851809); ([0.265331380484209678; 0.265331380484209678], 0.039960048027851809);
   ([0.469337239031580644; 0.265331380484209678], 0.039960048027851809); ([0.587085567133367348; 0.088273960601581103], 0.036122826526134168);
   ([0.324640472265051494; 0.088273960601581103], 0.036122826526134168); ([0.324640472265051494; 0.587085567133367348], 0.036122826526134168);
   ([0.587085567133367348; 0.324640472265051494], 0.036122826526134168); ([0.088273960601581103; 0.324640472265051494], 0.036122826526134168);
   ([0.088273960601581103; 0.587085567133367348], 0.036122826526134168)].
(** SBPTetrahedronElement nodes (coordinates, weight), sbp_fe.cpp:939-948 *)
Definition nodes_tet0 : list (list Q * Q) :=
  [([0.0; 0.0; 0.0], 0.041666666666666664); ([1.0; 0.0; 0.0], 0.041666666666666664);
   ([0.0; 1.0; 0.0], 0.041666666666666664); ([0.0; 0.0; 1.0], 0.041666666666666664)].
(** SBPTetrahedronElement nodes (coordinates, weight), sbp_fe.cpp:949-988 *)
Definition nodes_tet1 : list (list Q * Q) :=
  [([0.0; 0.0; 0.0], 0.0026679395344347597); ([1.0; 0.0; 0.0], 0.0026679395344347597);
   ([0.0; 1.0; 0.0], 0.0026679395344347597); ([0.0; 0.0; 1.0], 0.0026679395344347597);
   ([0.5; 0.0; 0.0], 0.003996605685951749); ([0.0; 0.5; 0.0], 0.003996605685951749);
   ([0.0; 0.0; 0.5], 0.003996605685951749); ([0.5; 0.5; 0.0], 0.003996605685951749);
   ([0.5; 0.0; 0.5], 0.003996605685951749); ([0.0; 0.5; 0.5], 0.003996605685951749);
   ([0.3333333333333333; 0.3333333333333333; 0.3333333333333333], 0.03300381860330423); ([0.0; 0.3333333333333333; 0.3333333333333333], 0.03300381860330423);
   ([0.3333333333333333; 0.0; 0.3333333333333333], 0.03300381860330423); ([0.3333333333333333; 0.3333333333333333; 0.0], 0.03300381860330423)].
