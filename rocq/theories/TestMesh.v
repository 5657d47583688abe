(** The tests of /repo/tests/test_celltree.py on the meshes of /repo/tests/data:
    538 triangles and 74 Voronoi polygons, in binary64; see TestSuite. *)
From Verif Require Import Base Num MUtils MGeometry MCreation MAlgorithms MQuery MCelltree NumB64 Examples TestSuite TestCelltree.
From Flocq Require Import BinarySingleNaN.
Open Scope Z_scope.

(** xy.txt and triangles.txt *)
Definition xy : list (point b64) :=
  [Pt (dec 25 2) (Zb 0);
   Pt (dec 348668 6) (dec 305045 7);
   Pt (dec 45 2) (Zb 0);
   Pt (dec 547907 6) (dec 479357 7);
   Pt (dec 65 2) (Zb 0);
   Pt (dec 747146 6) (dec 653668 7);
   Pt (dec 85 2) (Zb 0);
   Pt (dec 946385 6) (dec 82798 6);
   Pt (dec 246202 6) (dec 43412 6);
   Pt (dec 338074 6) (dec 905867 7);
   Pt (dec 443163 6) (dec 781417 7);
   Pt (dec 531259 6) (dec 14235 5);
   Pt (dec 640125 6) (dec 112871 6);
   Pt (dec 724444 6) (dec 194114 6);
   Pt (dec 837087 6) (dec 147601 6);
   Pt (dec 91763 5) (dec 245878 6);
   Pt (dec 234923 6) (dec 85505 6);
   Pt (dec 317208 6) (dec 147916 6);
   Pt (dec 422862 6) (dec 153909 6);
   Pt (dec 498469 6) (dec 23244 5);
   Pt (dec 6108 4) (dec 222313 6);
   Pt (dec 679731 6) (dec 316964 6);
   Pt (dec 798739 6) (dec 290717 6);
   Pt (dec 860992 6) (dec 401487 6);
   Pt (dec 216506 6) (dec 125 3);
   Pt (dec 286703 6) (dec 200752 6);
   Pt (dec 389711 6) (dec 225 3);
   Pt (dec 450534 6) (dec 315467 6);
   Pt (dec 562917 6) (dec 325 3);
   Pt (dec 614364 6) (dec 430182 6);
   Pt (dec 736122 6) (dec 425 3);
   Pt (dec 778194 6) (dec 544898 6);
   Pt (dec 191511 6) (dec 160697 6);
   Pt (dec 247487 6) (dec 247487 6);
   Pt (dec 34472 5) (dec 289254 6);
   Pt (dec 388909 6) (dec 388909 6);
   Pt (dec 497929 6) (dec 417812 6);
   Pt (dec 53033 5) (dec 53033 5);
   Pt (dec 651138 6) (dec 546369 6);
   Pt (dec 671751 6) (dec 671751 6);
   Pt (dec 160697 6) (dec 191511 6);
   Pt (dec 200752 6) (dec 286703 6);
   Pt (dec 289254 6) (dec 34472 5);
   Pt (dec 315467 6) (dec 450534 6);
   Pt (dec 417812 6) (dec 497929 6);
   Pt (dec 430182 6) (dec 614364 6);
   Pt (dec 546369 6) (dec 651138 6);
   Pt (dec 544898 6) (dec 778194 6);
   Pt (dec 125 3) (dec 216506 6);
   Pt (dec 147916 6) (dec 317208 6);
   Pt (dec 225 3) (dec 389711 6);
   Pt (dec 23244 5) (dec 498469 6);
   Pt (dec 325 3) (dec 562917 6);
   Pt (dec 316964 6) (dec 679731 6);
   Pt (dec 425 3) (dec 736122 6);
   Pt (dec 401487 6) (dec 860992 6);
   Pt (dec 85505 6) (dec 234923 6);
   Pt (dec 905867 7) (dec 338074 6);
   Pt (dec 153909 6) (dec 422862 6);
   Pt (dec 14235 5) (dec 531259 6);
   Pt (dec 222313 6) (dec 6108 4);
   Pt (dec 194114 6) (dec 724444 6);
   Pt (dec 290717 6) (dec 798739 6);
   Pt (dec 245878 6) (dec 91763 5);
   Pt (dec 43412 6) (dec 246202 6);
   Pt (dec 305045 7) (dec 348668 6);
   Pt (dec 781417 7) (dec 443163 6);
   Pt (dec 479357 7) (dec 547907 6);
   Pt (dec 112871 6) (dec 640125 6);
   Pt (dec 653668 7) (dec 747146 6);
   Pt (dec 147601 6) (dec 837087 6);
   Pt (dec 82798 6) (dec 946385 6);
   Pt (dec 153081 22) (dec 25 2);
   Pt (dec (-305045) 7) (dec 348668 6);
   Pt (dec 275546 22) (dec 45 2);
   Pt (dec (-479357) 7) (dec 547907 6);
   Pt (dec 39801 21) (dec 65 2);
   Pt (dec (-653668) 7) (dec 747146 6);
   Pt (dec 520475 22) (dec 85 2);
   Pt (dec (-82798) 6) (dec 946385 6);
   Pt (dec (-43412) 6) (dec 246202 6);
   Pt (dec (-905867) 7) (dec 338074 6);
   Pt (dec (-781417) 7) (dec 443163 6);
   Pt (dec (-14235) 5) (dec 531259 6);
   Pt (dec (-112871) 6) (dec 640125 6);
   Pt (dec (-194114) 6) (dec 724444 6);
   Pt (dec (-147601) 6) (dec 837087 6);
   Pt (dec (-245878) 6) (dec 91763 5);
   Pt (dec (-85505) 6) (dec 234923 6);
   Pt (dec (-147916) 6) (dec 317208 6);
   Pt (dec (-153909) 6) (dec 422862 6);
   Pt (dec (-23244) 5) (dec 498469 6);
   Pt (dec (-222313) 6) (dec 6108 4);
   Pt (dec (-316964) 6) (dec 679731 6);
   Pt (dec (-290717) 6) (dec 798739 6);
   Pt (dec (-401487) 6) (dec 860992 6);
   Pt (dec (-125) 3) (dec 216506 6);
   Pt (dec (-200752) 6) (dec 286703 6);
   Pt (dec (-225) 3) (dec 389711 6);
   Pt (dec (-315467) 6) (dec 450534 6);
   Pt (dec (-325) 3) (dec 562917 6);
   Pt (dec (-430182) 6) (dec 614364 6);
   Pt (dec (-425) 3) (dec 736122 6);
   Pt (dec (-544898) 6) (dec 778194 6);
   Pt (dec (-160697) 6) (dec 191511 6);
   Pt (dec (-247487) 6) (dec 247487 6);
   Pt (dec (-289254) 6) (dec 34472 5);
   Pt (dec (-388909) 6) (dec 388909 6);
   Pt (dec (-417812) 6) (dec 497929 6);
   Pt (dec (-53033) 5) (dec 53033 5);
   Pt (dec (-546369) 6) (dec 651138 6);
   Pt (dec (-671751) 6) (dec 671751 6);
   Pt (dec (-191511) 6) (dec 160697 6);
   Pt (dec (-286703) 6) (dec 200752 6);
   Pt (dec (-34472) 5) (dec 289254 6);
   Pt (dec (-450534) 6) (dec 315467 6);
   Pt (dec (-497929) 6) (dec 417812 6);
   Pt (dec (-614364) 6) (dec 430182 6);
   Pt (dec (-651138) 6) (dec 546369 6);
   Pt (dec (-778194) 6) (dec 544898 6);
   Pt (dec (-216506) 6) (dec 125 3);
   Pt (dec (-317208) 6) (dec 147916 6);
   Pt (dec (-389711) 6) (dec 225 3);
   Pt (dec (-498469) 6) (dec 23244 5);
   Pt (dec (-562917) 6) (dec 325 3);
   Pt (dec (-679731) 6) (dec 316964 6);
   Pt (dec (-736122) 6) (dec 425 3);
   Pt (dec (-860992) 6) (dec 401487 6);
   Pt (dec (-234923) 6) (dec 85505 6);
   Pt (dec (-338074) 6) (dec 905867 7);
   Pt (dec (-422862) 6) (dec 153909 6);
   Pt (dec (-531259) 6) (dec 14235 5);
   Pt (dec (-6108) 4) (dec 222313 6);
   Pt (dec (-724444) 6) (dec 194114 6);
   Pt (dec (-798739) 6) (dec 290717 6);
   Pt (dec (-91763) 5) (dec 245878 6);
   Pt (dec (-246202) 6) (dec 43412 6);
   Pt (dec (-348668) 6) (dec 305045 7);
   Pt (dec (-443163) 6) (dec 781417 7);
   Pt (dec (-547907) 6) (dec 479357 7);
   Pt (dec (-640125) 6) (dec 112871 6);
   Pt (dec (-747146) 6) (dec 653668 7);
   Pt (dec (-837087) 6) (dec 147601 6);
   Pt (dec (-946385) 6) (dec 82798 6);
   Pt (dec (-25) 2) (dec 306162 22);
   Pt (dec (-348668) 6) (dec (-305045) 7);
   Pt (dec (-45) 2) (dec 551091 22);
   Pt (dec (-547907) 6) (dec (-479357) 7);
   Pt (dec (-65) 2) (dec 79602 21);
   Pt (dec (-747146) 6) (dec (-653668) 7);
   Pt (dec (-85) 2) (dec 104095 21);
   Pt (dec (-946385) 6) (dec (-82798) 6);
   Pt (dec (-246202) 6) (dec (-43412) 6);
   Pt (dec (-338074) 6) (dec (-905867) 7);
   Pt (dec (-443163) 6) (dec (-781417) 7);
   Pt (dec (-531259) 6) (dec (-14235) 5);
   Pt (dec (-640125) 6) (dec (-112871) 6);
   Pt (dec (-724444) 6) (dec (-194114) 6);
   Pt (dec (-837087) 6) (dec (-147601) 6);
   Pt (dec (-91763) 5) (dec (-245878) 6);
   Pt (dec (-234923) 6) (dec (-85505) 6);
   Pt (dec (-317208) 6) (dec (-147916) 6);
   Pt (dec (-422862) 6) (dec (-153909) 6);
   Pt (dec (-498469) 6) (dec (-23244) 5);
   Pt (dec (-6108) 4) (dec (-222313) 6);
   Pt (dec (-679731) 6) (dec (-316964) 6);
   Pt (dec (-798739) 6) (dec (-290717) 6);
   Pt (dec (-860992) 6) (dec (-401487) 6);
   Pt (dec (-216506) 6) (dec (-125) 3);
   Pt (dec (-286703) 6) (dec (-200752) 6);
   Pt (dec (-389711) 6) (dec (-225) 3);
   Pt (dec (-450534) 6) (dec (-315467) 6);
   Pt (dec (-562917) 6) (dec (-325) 3);
   Pt (dec (-614364) 6) (dec (-430182) 6);
   Pt (dec (-736122) 6) (dec (-425) 3);
   Pt (dec (-778194) 6) (dec (-544898) 6);
   Pt (dec (-191511) 6) (dec (-160697) 6);
   Pt (dec (-247487) 6) (dec (-247487) 6);
   Pt (dec (-34472) 5) (dec (-289254) 6);
   Pt (dec (-388909) 6) (dec (-388909) 6);
   Pt (dec (-497929) 6) (dec (-417812) 6);
   Pt (dec (-53033) 5) (dec (-53033) 5);
   Pt (dec (-651138) 6) (dec (-546369) 6);
   Pt (dec (-671751) 6) (dec (-671751) 6);
   Pt (dec (-160697) 6) (dec (-191511) 6);
   Pt (dec (-200752) 6) (dec (-286703) 6);
   Pt (dec (-289254) 6) (dec (-34472) 5);
   Pt (dec (-315467) 6) (dec (-450534) 6);
   Pt (dec (-417812) 6) (dec (-497929) 6);
   Pt (dec (-430182) 6) (dec (-614364) 6);
   Pt (dec (-546369) 6) (dec (-651138) 6);
   Pt (dec (-544898) 6) (dec (-778194) 6);
   Pt (dec (-125) 3) (dec (-216506) 6);
   Pt (dec (-147916) 6) (dec (-317208) 6);
   Pt (dec (-225) 3) (dec (-389711) 6);
   Pt (dec (-23244) 5) (dec (-498469) 6);
   Pt (dec (-325) 3) (dec (-562917) 6);
   Pt (dec (-316964) 6) (dec (-679731) 6);
   Pt (dec (-425) 3) (dec (-736122) 6);
   Pt (dec (-401487) 6) (dec (-860992) 6);
   Pt (dec (-85505) 6) (dec (-234923) 6);
   Pt (dec (-905867) 7) (dec (-338074) 6);
   Pt (dec (-153909) 6) (dec (-422862) 6);
   Pt (dec (-14235) 5) (dec (-531259) 6);
   Pt (dec (-222313) 6) (dec (-6108) 4);
   Pt (dec (-194114) 6) (dec (-724444) 6);
   Pt (dec (-290717) 6) (dec (-798739) 6);
   Pt (dec (-245878) 6) (dec (-91763) 5);
   Pt (dec (-43412) 6) (dec (-246202) 6);
   Pt (dec (-305045) 7) (dec (-348668) 6);
   Pt (dec (-781417) 7) (dec (-443163) 6);
   Pt (dec (-479357) 7) (dec (-547907) 6);
   Pt (dec (-112871) 6) (dec (-640125) 6);
   Pt (dec (-653668) 7) (dec (-747146) 6);
   Pt (dec (-147601) 6) (dec (-837087) 6);
   Pt (dec (-82798) 6) (dec (-946385) 6);
   Pt (dec (-459243) 22) (dec (-25) 2);
   Pt (dec 305045 7) (dec (-348668) 6);
   Pt (dec (-826637) 22) (dec (-45) 2);
   Pt (dec 479357 7) (dec (-547907) 6);
   Pt (dec (-119403) 21) (dec (-65) 2);
   Pt (dec 653668 7) (dec (-747146) 6);
   Pt (dec (-156142) 21) (dec (-85) 2);
   Pt (dec 82798 6) (dec (-946385) 6);
   Pt (dec 43412 6) (dec (-246202) 6);
   Pt (dec 905867 7) (dec (-338074) 6);
   Pt (dec 781417 7) (dec (-443163) 6);
   Pt (dec 14235 5) (dec (-531259) 6);
   Pt (dec 112871 6) (dec (-640125) 6);
   Pt (dec 194114 6) (dec (-724444) 6);
   Pt (dec 147601 6) (dec (-837087) 6);
   Pt (dec 245878 6) (dec (-91763) 5);
   Pt (dec 85505 6) (dec (-234923) 6);
   Pt (dec 147916 6) (dec (-317208) 6);
   Pt (dec 153909 6) (dec (-422862) 6);
   Pt (dec 23244 5) (dec (-498469) 6);
   Pt (dec 222313 6) (dec (-6108) 4);
   Pt (dec 316964 6) (dec (-679731) 6);
   Pt (dec 290717 6) (dec (-798739) 6);
   Pt (dec 401487 6) (dec (-860992) 6);
   Pt (dec 125 3) (dec (-216506) 6);
   Pt (dec 200752 6) (dec (-286703) 6);
   Pt (dec 225 3) (dec (-389711) 6);
   Pt (dec 315467 6) (dec (-450534) 6);
   Pt (dec 325 3) (dec (-562917) 6);
   Pt (dec 430182 6) (dec (-614364) 6);
   Pt (dec 425 3) (dec (-736122) 6);
   Pt (dec 544898 6) (dec (-778194) 6);
   Pt (dec 160697 6) (dec (-191511) 6);
   Pt (dec 247487 6) (dec (-247487) 6);
   Pt (dec 289254 6) (dec (-34472) 5);
   Pt (dec 388909 6) (dec (-388909) 6);
   Pt (dec 417812 6) (dec (-497929) 6);
   Pt (dec 53033 5) (dec (-53033) 5);
   Pt (dec 546369 6) (dec (-651138) 6);
   Pt (dec 671751 6) (dec (-671751) 6);
   Pt (dec 191511 6) (dec (-160697) 6);
   Pt (dec 286703 6) (dec (-200752) 6);
   Pt (dec 34472 5) (dec (-289254) 6);
   Pt (dec 450534 6) (dec (-315467) 6);
   Pt (dec 497929 6) (dec (-417812) 6);
   Pt (dec 614364 6) (dec (-430182) 6);
   Pt (dec 651138 6) (dec (-546369) 6);
   Pt (dec 778194 6) (dec (-544898) 6);
   Pt (dec 216506 6) (dec (-125) 3);
   Pt (dec 317208 6) (dec (-147916) 6);
   Pt (dec 389711 6) (dec (-225) 3);
   Pt (dec 498469 6) (dec (-23244) 5);
   Pt (dec 562917 6) (dec (-325) 3);
   Pt (dec 679731 6) (dec (-316964) 6);
   Pt (dec 736122 6) (dec (-425) 3);
   Pt (dec 860992 6) (dec (-401487) 6);
   Pt (dec 234923 6) (dec (-85505) 6);
   Pt (dec 338074 6) (dec (-905867) 7);
   Pt (dec 422862 6) (dec (-153909) 6);
   Pt (dec 531259 6) (dec (-14235) 5);
   Pt (dec 6108 4) (dec (-222313) 6);
   Pt (dec 724444 6) (dec (-194114) 6);
   Pt (dec 798739 6) (dec (-290717) 6);
   Pt (dec 91763 5) (dec (-245878) 6);
   Pt (dec 246202 6) (dec (-43412) 6);
   Pt (dec 348668 6) (dec (-305045) 7);
   Pt (dec 443163 6) (dec (-781417) 7);
   Pt (dec 547907 6) (dec (-479357) 7);
   Pt (dec 640125 6) (dec (-112871) 6);
   Pt (dec 747146 6) (dec (-653668) 7);
   Pt (dec 837087 6) (dec (-147601) 6);
   Pt (dec 946385 6) (dec (-82798) 6)].
Definition triangles : list (list Z) :=
  [[178; 171; 179]; [179; 171; 180]; [167; 166; 159]; [174; 167; 175]; [166; 167; 174]; [188; 179; 180]; [188; 187; 179]; [196; 187; 188];
   [111; 110; 103]; [79; 87; 86]; [86; 87; 94]; [6; 287; 7]; [13; 22; 21]; [63; 62; 55]; [255; 262; 254]; [143; 151; 150];
   [182; 174; 175]; [180; 171; 172]; [159; 166; 158]; [166; 157; 158]; [158; 151; 159]; [158; 157; 149]; [149; 150; 158]; [158; 150; 151];
   [205; 206; 214]; [155; 162; 154]; [131; 138; 130]; [147; 155; 154]; [195; 187; 196]; [170; 171; 178]; [178; 169; 170]; [199; 206; 198];
   [190; 191; 198]; [198; 191; 199]; [238; 239; 246]; [246; 237; 238]; [231; 239; 238]; [124; 115; 116]; [116; 117; 124]; [118; 111; 119];
   [110; 111; 118]; [126; 118; 119]; [117; 118; 126]; [123; 115; 124]; [124; 132; 123]; [123; 132; 131]; [122; 115; 123]; [123; 130; 122];
   [131; 130; 123]; [108; 116; 107]; [107; 116; 115]; [95; 94; 87]; [38; 37; 29]; [38; 31; 39]; [39; 46; 38]; [38; 46; 37];
   [30; 29; 21]; [23; 31; 30]; [21; 22; 30]; [30; 22; 23]; [30; 38; 29]; [31; 38; 30]; [11; 10; 3]; [283; 4; 3];
   [21; 29; 28]; [22; 13; 14]; [14; 13; 5]; [14; 6; 7]; [5; 6; 14]; [285; 6; 5]; [5; 4; 285]; [11; 3; 12];
   [12; 3; 4]; [5; 13; 12]; [12; 4; 5]; [86; 94; 85]; [71; 79; 78]; [78; 79; 86]; [246; 239; 247]; [247; 254; 246];
   [255; 254; 247]; [270; 261; 262]; [269; 261; 270]; [262; 261; 253]; [253; 254; 262]; [268; 267; 259]; [268; 261; 269]; [259; 267; 266];
   [181; 188; 180]; [181; 182; 190]; [183; 191; 190]; [190; 182; 183]; [183; 182; 175]; [166; 174; 165]; [165; 172; 164]; [164; 157; 165];
   [165; 157; 166]; [174; 182; 173]; [180; 172; 173]; [173; 165; 174]; [172; 165; 173]; [173; 181; 180]; [182; 181; 173]; [207; 206; 199];
   [207; 214; 206]; [215; 214; 207]; [162; 170; 161]; [161; 170; 169]; [176; 169; 177]; [177; 169; 178]; [178; 179; 186]; [179; 187; 186];
   [186; 177; 178]; [185; 177; 186]; [122; 130; 121]; [146; 147; 154]; [154; 145; 146]; [148; 147; 139]; [139; 138; 131]; [147; 146; 139];
   [139; 146; 138]; [164; 155; 156]; [155; 147; 156]; [156; 147; 148]; [149; 157; 156]; [156; 157; 164]; [156; 148; 149]; [219; 211; 220];
   [220; 211; 212]; [204; 195; 196]; [205; 212; 204]; [162; 155; 163]; [163; 170; 162]; [171; 170; 163]; [164; 172; 163]; [163; 172; 171];
   [163; 155; 164]; [196; 188; 189]; [190; 198; 189]; [189; 181; 190]; [188; 181; 189]; [243; 251; 250]; [243; 244; 252]; [252; 251; 243];
   [227; 226; 219]; [234; 226; 227]; [246; 254; 245]; [252; 244; 245]; [245; 253; 252]; [254; 253; 245]; [245; 237; 246]; [245; 244; 237];
   [231; 238; 230]; [230; 223; 231]; [117; 116; 109]; [109; 118; 117]; [109; 116; 108]; [110; 118; 109]; [127; 126; 119]; [125; 132; 124];
   [124; 117; 125]; [117; 126; 125]; [125; 133; 132]; [104; 105; 112]; [114; 105; 106]; [114; 115; 122]; [106; 107; 114]; [114; 107; 115];
   [103; 110; 102]; [94; 95; 102]; [102; 95; 103]; [54; 62; 53]; [55; 62; 54]; [45; 44; 37]; [37; 46; 45]; [46; 54; 45];
   [45; 52; 44]; [53; 52; 45]; [45; 54; 53]; [267; 268; 276]; [269; 277; 276]; [276; 268; 269]; [11; 19; 18]; [18; 10; 11];
   [19; 26; 18]; [18; 9; 10]; [19; 28; 27]; [34; 26; 27]; [27; 26; 19]; [37; 44; 36]; [29; 37; 36]; [36; 28; 29];
   [36; 27; 28]; [23; 22; 15]; [22; 14; 15]; [15; 14; 7]; [20; 19; 11]; [20; 28; 19]; [11; 12; 20]; [20; 13; 21];
   [21; 28; 20]; [20; 12; 13]; [99; 107; 106]; [99; 100; 108]; [108; 107; 99]; [48; 41; 49]; [86; 85; 77]; [77; 78; 86];
   [62; 63; 70]; [70; 63; 71]; [71; 78; 70]; [53; 62; 61]; [62; 70; 61]; [263; 262; 255]; [271; 270; 263]; [263; 270; 262];
   [274; 266; 267]; [260; 268; 259]; [259; 251; 260]; [260; 251; 252]; [260; 253; 261]; [252; 253; 260]; [261; 268; 260]; [258; 251; 259];
   [259; 266; 258]; [250; 251; 258]; [43; 52; 51]; [44; 52; 43]; [142; 135; 143]; [143; 150; 142]; [153; 161; 160]; [153; 145; 154];
   [154; 162; 153]; [162; 161; 153]; [168; 169; 176]; [160; 161; 168]; [168; 161; 169]; [185; 186; 194]; [187; 195; 194]; [194; 195; 202];
   [194; 186; 187]; [112; 105; 113]; [122; 121; 113]; [105; 114; 113]; [113; 114; 122]; [129; 130; 138]; [129; 121; 130]; [213; 220; 212];
   [213; 212; 205]; [205; 214; 213]; [221; 220; 213]; [212; 211; 203]; [195; 204; 203]; [203; 204; 212]; [202; 195; 203]; [211; 210; 203];
   [203; 210; 202]; [197; 198; 206]; [197; 204; 196]; [196; 189; 197]; [197; 189; 198]; [197; 206; 205]; [205; 204; 197]; [237; 244; 236];
   [234; 227; 235]; [244; 243; 235]; [227; 236; 235]; [235; 236; 244]; [126; 127; 134]; [134; 125; 126]; [134; 127; 135]; [133; 125; 134];
   [135; 142; 134]; [134; 142; 133]; [94; 102; 93]; [93; 85; 94]; [108; 100; 101]; [101; 102; 110]; [101; 109; 108]; [110; 109; 101];
   [100; 93; 101]; [101; 93; 102]; [51; 52; 60]; [60; 52; 53]; [60; 61; 68]; [53; 61; 60]; [47; 46; 39]; [47; 54; 46];
   [55; 54; 47]; [286; 285; 277]; [286; 279; 287]; [287; 6; 286]; [6; 285; 286]; [278; 277; 269]; [271; 279; 278]; [269; 270; 278];
   [278; 270; 271]; [278; 286; 277]; [279; 286; 278]; [267; 276; 275]; [275; 274; 267]; [277; 285; 284]; [284; 285; 4]; [284; 276; 277];
   [284; 4; 283]; [284; 275; 276]; [283; 275; 284]; [88; 89; 96]; [98; 89; 90]; [98; 99; 106]; [92; 93; 100]; [85; 93; 92];
   [73; 72; 65]; [65; 74; 73]; [75; 74; 67]; [42; 43; 50]; [50; 43; 51]; [41; 42; 50]; [50; 49; 41]; [48; 49; 56];
   [76; 67; 68]; [75; 67; 76]; [242; 233; 234]; [242; 241; 233]; [250; 241; 242]; [242; 243; 250]; [242; 235; 243]; [234; 235; 242];
   [283; 3; 2]; [2; 3; 10]; [249; 241; 250]; [250; 258; 249]; [35; 42; 34]; [34; 27; 35]; [35; 43; 42]; [27; 36; 35];
   [35; 36; 44]; [44; 43; 35]; [141; 142; 150]; [149; 148; 141]; [141; 150; 149]; [133; 142; 141]; [137; 146; 145]; [138; 146; 137];
   [137; 129; 138]; [145; 144; 137]; [222; 214; 215]; [222; 213; 214]; [215; 223; 222]; [221; 213; 222]; [223; 230; 222]; [222; 230; 221];
   [229; 238; 237]; [237; 236; 229]; [229; 230; 238]; [221; 230; 229]; [228; 236; 227]; [219; 220; 228]; [228; 227; 219]; [228; 220; 221];
   [228; 229; 236]; [221; 229; 228]; [40; 41; 48]; [8; 9; 16]; [25; 26; 34]; [104; 96; 97]; [105; 104; 97]; [97; 96; 89];
   [106; 105; 97]; [89; 98; 97]; [97; 98; 106]; [90; 83; 91]; [99; 98; 91]; [91; 98; 90]; [100; 99; 91]; [83; 92; 91];
   [91; 92; 100]; [72; 73; 80]; [82; 73; 74]; [82; 83; 90]; [75; 83; 82]; [82; 74; 75]; [58; 50; 51]; [49; 50; 58];
   [65; 72; 64]; [69; 70; 78]; [69; 76; 68]; [68; 61; 69]; [69; 61; 70]; [77; 76; 69]; [78; 77; 69]; [84; 83; 75];
   [84; 92; 83]; [75; 76; 84]; [84; 77; 85]; [85; 92; 84]; [84; 76; 77]; [233; 241; 240]; [240; 232; 233]; [176; 177; 184];
   [184; 177; 185]; [193; 194; 202]; [185; 194; 193]; [226; 217; 218]; [218; 210; 211]; [219; 226; 218]; [218; 211; 219]; [216; 217; 224];
   [257; 264; 256]; [256; 249; 257]; [257; 258; 266]; [257; 249; 258]; [132; 133; 140]; [133; 141; 140]; [140; 141; 148]; [131; 132; 140];
   [148; 139; 140]; [140; 139; 131]; [121; 129; 128]; [145; 153; 152]; [152; 153; 160]; [152; 144; 145]; [24; 25; 32]; [33; 42; 41];
   [34; 42; 33]; [33; 25; 34]; [33; 40; 32]; [41; 40; 33]; [32; 25; 33]; [90; 89; 81]; [73; 82; 81]; [81; 82; 90];
   [88; 80; 81]; [81; 89; 88]; [81; 80; 73]; [59; 58; 51]; [59; 60; 68]; [51; 60; 59]; [68; 67; 59]; [49; 58; 57];
   [57; 64; 56]; [57; 56; 49]; [65; 64; 57]; [248; 249; 256]; [241; 249; 248]; [248; 240; 241]; [192; 184; 185]; [192; 193; 200];
   [185; 193; 192]; [209; 217; 216]; [210; 218; 209]; [209; 218; 217]; [232; 224; 225]; [233; 232; 225]; [225; 224; 217]; [234; 233; 225];
   [225; 226; 234]; [225; 217; 226]; [2; 281; 282]; [274; 275; 282]; [282; 275; 283]; [283; 2; 282]; [1; 9; 8]; [1; 2; 10];
   [10; 9; 1]; [1; 281; 2]; [266; 274; 265]; [265; 257; 266]; [264; 257; 265]; [112; 113; 120]; [120; 113; 121]; [121; 128; 120];
   [129; 137; 136]; [136; 137; 144]; [136; 128; 129]; [17; 24; 16]; [17; 16; 9]; [25; 24; 17]; [9; 18; 17]; [17; 18; 26];
   [26; 25; 17]; [66; 67; 74]; [58; 59; 66]; [66; 59; 67]; [66; 74; 65]; [66; 57; 58]; [65; 57; 66]; [208; 209; 216];
   [201; 193; 202]; [202; 210; 201]; [210; 209; 201]; [201; 208; 200]; [200; 193; 201]; [209; 208; 201]; [0; 280; 281]; [281; 1; 0];
   [0; 1; 8]; [264; 265; 272]; [273; 282; 281]; [274; 282; 273]; [273; 265; 274]; [280; 272; 273]; [281; 280; 273]; [273; 272; 265];
   [8; 16; 272]; [216; 224; 272]; [272; 64; 72]; [256; 264; 272]; [272; 168; 176]; [272; 24; 32]; [272; 104; 112]; [88; 96; 272];
   [48; 56; 272]; [272; 192; 200]; [160; 168; 272]; [272; 40; 48]; [272; 96; 104]; [272; 80; 88]; [176; 184; 272]; [272; 136; 144];
   [272; 208; 216]; [32; 40; 272]; [272; 152; 160]; [72; 80; 272]; [56; 64; 272]; [232; 240; 272]; [272; 248; 256]; [272; 224; 232];
   [112; 120; 272]; [144; 152; 272]; [16; 24; 272]; [240; 248; 272]; [184; 192; 272]; [272; 0; 8]; [272; 120; 128]; [128; 136; 272];
   [200; 208; 272]; [280; 0; 272]].
(** voronoi_xy.txt and voronoi.txt *)
Definition voronoi_xy : list (point b64) :=
  [Pt (dec (-8166667) 8) (dec 877 3);
   Pt (dec (-6966667) 8) (dec 88 2);
   Pt (dec (-7566667) 8) (dec 8823333 7);
   Pt (dec (-6266667) 8) (dec 8816667 7);
   Pt (dec (-4966667) 8) (dec 8833333 7);
   Pt (dec 1066667 8) (dec 888 3);
   Pt (dec (-6) 2) (dec 8863333 7);
   Pt (dec (-4566667) 8) (dec 8886667 7);
   Pt (dec (-8933333) 8) (dec 8756667 7);
   Pt (dec (-3733333) 8) (dec 8863333 7);
   Pt (dec 16 3) (dec 8936667 7);
   Pt (dec 21 3) (dec 893 3);
   Pt (dec (-6) 3) (dec 8906667 7);
   Pt (dec 2 3) (dec 8943333 7);
   Pt (dec (-3466667) 8) (dec 8956667 7);
   Pt (dec (-6633333) 8) (dec 9006667 7);
   Pt (dec (-2366667) 8) (dec 8913333 7);
   Pt (dec (-1633333) 8) (dec 8986667 7);
   Pt (dec (-61) 3) (dec 906 3);
   Pt (dec (-8333333) 8) (dec 9006667 7);
   Pt (dec (-53) 3) (dec 9026667 7);
   Pt (dec (-7733333) 8) (dec 9036667 7);
   Pt (dec 733333 8) (dec 9 1);
   Pt (dec 5 3) (dec 9086667 7);
   Pt (dec (-65) 3) (dec 9146667 7);
   Pt (dec 28 3) (dec 9133333 7);
   Pt (dec 2266667 8) (dec 9093333 7);
   Pt (dec (-44) 3) (dec 9066667 7);
   Pt (dec 1466667 8) (dec 9146667 7);
   Pt (dec (-74) 3) (dec 9226667 7);
   Pt (dec (-2066667) 8) (dec 915 3);
   Pt (dec (-4633333) 8) (dec 9176667 7);
   Pt (dec (-5933333) 8) (dec 9223333 7);
   Pt (dec 466667 8) (dec 9273333 7);
   Pt (dec (-3566667) 8) (dec 9233333 7);
   Pt (dec (-9) 3) (dec 9196667 7);
   Pt (dec (-6466667) 8) (dec 9263333 7);
   Pt (dec (-566667) 8) (dec 9296667 7);
   Pt (dec (-4166667) 8) (dec 935 3);
   Pt (dec (-933333) 8) (dec 9383333 7);
   Pt (dec (-17) 3) (dec 9446667 7);
   Pt (dec (-5466667) 8) (dec 9496667 7);
   Pt (dec (-31) 3) (dec 943 3);
   Pt (dec (-81) 3) (dec 955 3);
   Pt (dec (-7866667) 8) (dec 9596667 7);
   Pt (dec (-4066667) 8) (dec 9513333 7);
   Pt (dec (-3333333) 8) (dec 96 2);
   Pt (dec (-4) 2) (dec 9663333 7);
   Pt (dec (-4866667) 8) (dec 9686667 7);
   Pt (dec (-9366667) 8) (dec 9683333 7);
   Pt (dec (-8966667) 8) (dec 971 3);
   Pt (dec (-5833333) 8) (dec 9623333 7);
   Pt (dec (-67) 3) (dec 965 3);
   Pt (dec (-9133333) 8) (dec 9773333 7);
   Pt (dec (-1043333) 7) (dec 9823333 7);
   Pt (dec (-8066667) 8) (dec 9763333 7);
   Pt (dec (-8466667) 8) (dec 9823333 7);
   Pt (dec (-6966667) 8) (dec 977 3);
   Pt (dec (-99) 3) (dec 9836667 7);
   Pt (dec (-52) 3) (dec 9826667 7);
   Pt (dec (-6266667) 8) (dec 986 3);
   Pt (dec (-9933333) 8) (dec 988 3);
   Pt (dec (-9766667) 8) (dec 991 3);
   Pt (dec (-48) 3) (dec 9866667 7);
   Pt (dec (-49) 3) (dec 995 3);
   Pt (dec (-6666667) 8) (dec 996 3);
   Pt (dec (-8933333) 8) (dec 99 2);
   Pt (dec (-3966667) 8) (dec 996 3);
   Pt (dec (-1053333) 7) (dec 9966667 7);
   Pt (dec (-57) 3) (dec 1001 3);
   Pt (dec (-3666667) 8) (dec 1002 3);
   Pt (dec (-8866667) 8) (dec 9986667 7);
   Pt (dec (-9666667) 8) (dec 1004333 6);
   Pt (dec (-7) 2) (dec 1001667 6);
   Pt (dec (-7866667) 8) (dec 1003333 6);
   Pt (dec (-82) 3) (dec 1013667 6);
   Pt (dec (-6333333) 8) (dec 1016 3);
   Pt (dec (-75) 3) (dec 1017333 6);
   Pt (dec (-5766667) 8) (dec 102 2);
   Pt (dec (-9033808) 8) (dec 8775848 7);
   Pt (dec (-8933333) 8) (dec 872 3);
   Pt (dec (-7665982) 8) (dec 8845183 7);
   Pt (dec (-6037555) 8) (dec 8891499 7);
   Pt (dec (-4945385) 8) (dec 8935359 7);
   Pt (dec (-5186486) 8) (dec 8958559 7);
   Pt (dec (-6711625) 8) (dec 8981613 7);
   Pt (dec (-8303333) 8) (dec 8985667 7);
   Pt (dec (-8733333) 8) (dec 8986667 7);
   Pt (dec (-7763333) 8) (dec 9057667 7);
   Pt (dec (-69) 3) (dec 9146667 7);
   Pt (dec (-7354667) 8) (dec 9201733 7);
   Pt (dec (-7596154) 8) (dec 9241923 7);
   Pt (dec (-6489888) 8) (dec 9287715 7);
   Pt (dec (-4946667) 8) (dec 9376 4);
   Pt (dec (-564) 4) (dec 9462 4);
   Pt (dec (-5843218) 8) (dec 9530138 7);
   Pt (dec (-569668) 7) (dec 9572088 7);
   Pt (dec (-807439) 7) (dec 9526951 7);
   Pt (dec (-87) 3) (dec 955 3);
   Pt (dec (-825) 4) (dec 9635 4);
   Pt (dec (-8511261) 8) (dec 9731577 7);
   Pt (dec (-857451) 7) (dec 9700196 7);
   Pt (dec (-9366667) 8) (dec 965 3);
   Pt (dec (-97) 3) (dec 9683333 7);
   Pt (dec (-9467296) 8) (dec 9791887 7);
   Pt (dec (-9796907) 8) (dec 9813471 7);
   Pt (dec (-1043333) 7) (dec 98 2);
   Pt (dec (-1060923) 7) (dec 9833385 7);
   Pt (dec (-1032333) 7) (dec 9893 4);
   Pt (dec (-1060544) 7) (dec 995495 6);
   Pt (dec (-1049597) 7) (dec 9978624 7);
   Pt (dec (-100392) 6) (dec 1003656 6);
   Pt (dec (-9764359) 8) (dec 1007915 6);
   Pt (dec (-8851538) 8) (dec 1015444 6);
   Pt (dec (-75) 3) (dec 1021 3);
   Pt (dec (-5776437) 8) (dec 1021661 6);
   Pt (dec (-52) 3) (dec 102 2);
   Pt (dec (-6204241) 8) (dec 1012865 6);
   Pt (dec (-6533333) 8) (dec 1006333 6);
   Pt (dec (-57) 3) (dec 1005 3);
   Pt (dec (-3666667) 8) (dec 1005 3);
   Pt (dec (-31) 3) (dec 1002 3);
   Pt (dec (-3533333) 8) (dec 9916667 7);
   Pt (dec (-4286036) 8) (dec 9829955 7);
   Pt (dec (-4837387) 8) (dec 9775901 7);
   Pt (dec (-4772973) 8) (dec 9742883 7);
   Pt (dec (-3788839) 8) (dec 9722458 7);
   Pt (dec (-2424138) 8) (dec 9638965 7);
   Pt (dec (-1386667) 8) (dec 9509333 7);
   Pt (dec (-304) 5) (dec 9430533 7);
   Pt (dec 546667 8) (dec 9276 4);
   Pt (dec 620513 8) (dec 9270256 7);
   Pt (dec 1379977 8) (dec 9220353 7);
   Pt (dec 2983333 8) (dec 9151667 7);
   Pt (dec 3234359 8) (dec 9108513 7);
   Pt (dec 2514201 8) (dec 9033925 7);
   Pt (dec 2297315 8) (dec 8958188 7);
   Pt (dec 2360177 8) (dec 8900265 7);
   Pt (dec 1121622 8) (dec 8847027 7);
   Pt (dec (-65451) 7) (dec 8835804 7);
   Pt (dec (-2319655) 8) (dec 8833414 7);
   Pt (dec (-3472165) 8) (dec 880457 6);
   Pt (dec (-4998995) 8) (dec 8802621 7);
   Pt (dec (-595) 4) (dec 8785 4);
   Pt (dec (-6966667) 8) (dec 876 3);
   Pt (dec (-8069072) 8) (dec 8748041 7)].
Definition voronoi : list (list Z) :=
  [[13; 5; 10; 22; -1; -1; -1; -1; -1]; [27; 14; 16; 17; 30; 34; 31; -1; -1]; [17; 12; 13; 22; 23; 35; 30; -1; -1]; [24; 18; 20; 27; 31; 32; -1; -1; -1]; [34; 30; 35; 37; 39; 40; 42; 38; -1]; [66; 56; 55; 57; 60; 65; 73; 74; 71]; [60; 59; 63; 64; 69; 65; -1; -1; -1]; [80; 8; 79; -1; -1; -1; -1; -1; -1];
   [79; 8; 0; 2; 81; -1; -1; -1; -1]; [2; 1; 3; 6; 82; 81; -1; -1; -1]; [6; 4; 7; 83; 82; -1; -1; -1; -1]; [83; 7; 9; 14; 27; 20; 84; -1; -1]; [15; 85; 84; 20; 18; -1; -1; -1; -1]; [86; 85; 15; 21; 19; -1; -1; -1; -1]; [87; 86; 19; -1; -1; -1; -1; -1; -1]; [87; 19; 21; 88; -1; -1; -1; -1; -1];
   [88; 21; 15; 18; 24; 89; -1; -1; -1]; [89; 24; 32; 36; 29; 90; -1; -1; -1]; [90; 29; 91; -1; -1; -1; -1; -1; -1]; [91; 29; 36; 92; -1; -1; -1; -1; -1]; [36; 32; 31; 34; 38; 93; 92; -1; -1]; [93; 38; 42; 45; 41; 94; -1; -1; -1]; [94; 41; 95; -1; -1; -1; -1; -1; -1]; [96; 95; 41; 45; 46; 47; 48; 51; -1];
   [43; 97; 96; 51; 52; 44; -1; -1; -1]; [97; 43; 98; -1; -1; -1; -1; -1; -1]; [98; 43; 44; 99; -1; -1; -1; -1; -1]; [99; 44; 52; 57; 55; 100; -1; -1; -1]; [50; 101; 100; 55; 56; 53; -1; -1; -1]; [49; 102; 101; 50; -1; -1; -1; -1; -1]; [102; 49; 103; -1; -1; -1; -1; -1; -1]; [103; 49; 50; 53; 104; -1; -1; -1; -1];
   [58; 105; 104; 53; 56; 66; 62; 61; -1]; [106; 105; 58; 54; -1; -1; -1; -1; -1]; [106; 54; 107; -1; -1; -1; -1; -1; -1]; [107; 54; 58; 61; 108; -1; -1; -1; -1]; [108; 61; 62; 68; 109; -1; -1; -1; -1]; [109; 68; 110; -1; -1; -1; -1; -1; -1]; [68; 62; 66; 71; 72; 111; 110; -1; -1]; [111; 72; 112; -1; -1; -1; -1; -1; -1];
   [72; 71; 74; 75; 113; 112; -1; -1; -1]; [113; 75; 77; 114; -1; -1; -1; -1; -1]; [77; 76; 78; 115; 114; -1; -1; -1; -1]; [78; 116; 115; -1; -1; -1; -1; -1; -1]; [76; 117; 116; 78; -1; -1; -1; -1; -1]; [74; 73; 118; 117; 76; 77; 75; -1; -1]; [73; 65; 69; 119; 118; -1; -1; -1; -1]; [64; 67; 70; 120; 119; 69; -1; -1; -1];
   [70; 121; 120; -1; -1; -1; -1; -1; -1]; [67; 122; 121; 70; -1; -1; -1; -1; -1]; [63; 123; 122; 67; 64; -1; -1; -1; -1]; [124; 123; 63; 59; -1; -1; -1; -1; -1]; [52; 51; 48; 125; 124; 59; 60; 57; -1]; [48; 47; 126; 125; -1; -1; -1; -1; -1]; [46; 127; 126; 47; -1; -1; -1; -1; -1]; [45; 42; 40; 128; 127; 46; -1; -1; -1];
   [39; 129; 128; 40; -1; -1; -1; -1; -1]; [37; 33; 130; 129; 39; -1; -1; -1; -1]; [131; 130; 33; -1; -1; -1; -1; -1; -1]; [35; 23; 28; 132; 131; 33; 37; -1; -1]; [28; 26; 25; 133; 132; -1; -1; -1; -1]; [134; 133; 25; -1; -1; -1; -1; -1; -1]; [135; 134; 25; 26; -1; -1; -1; -1; -1]; [22; 10; 11; 136; 135; 26; 28; 23; -1];
   [137; 136; 11; -1; -1; -1; -1; -1; -1]; [5; 138; 137; 11; 10; -1; -1; -1; -1]; [139; 138; 5; 13; 12; -1; -1; -1; -1]; [140; 139; 12; 17; 16; -1; -1; -1; -1]; [9; 141; 140; 16; 14; -1; -1; -1; -1]; [4; 142; 141; 9; 7; -1; -1; -1; -1]; [3; 143; 142; 4; 6; -1; -1; -1; -1]; [144; 143; 3; 1; -1; -1; -1; -1; -1];
   [0; 145; 144; 1; 2; -1; -1; -1; -1]; [80; 145; 0; 8; -1; -1; -1; -1; -1]].

(** test_celltree.py:107-112 *)
Example test_init_larger_mesh : is_ok (CellTree2d_init g0 xy triangles (-1) 2 2) = true.
Proof. vm_compute. reflexivity. Qed.

(** test_celltree.py:591-603 *)
Example test_node_bounds : built voronoi_xy voronoi (-1) 4 2 (fun t => let* nb := node_bounds g0 t in
  let b := bbox (celltree_data t) in
  Ok ((length nb =? length (nodes (celltree_data t)))%nat
      && forallb (fun x => nleb (xmin b) (xmin x) && nleb (xmax x) (xmax b) && nleb (ymin b) (ymin x) && nleb (ymax x) (ymax b)) nb)) = true.
Proof. vm_compute. reflexivity. Qed.

Definition set_Lmax (i : nat) (x : b64) (t : tree2d (T:=b64)) : tree2d (T:=b64) :=
  let c := celltree_data t in
  let nds := firstn i (nodes c) ++ map (fun nd => Node (nchild nd) x (nRmin nd) (nptr nd) (nsize nd) (ndim nd)) (firstn 1 (skipn i (nodes c)))
             ++ skipn (S i) (nodes c) in
  Tree2d (CellTree (elements c) (vertices c) nds (bb_indices c) (bb_coords c) (bbox c) (cells_per_leaf c)) (bb_dist t) (t_n_buckets t).

(** test_celltree.py:606-618 *)
Example test_node_validity : built voronoi_xy voronoi (-1) 4 2 (fun t => let* v := CellTree2d_validate_node_bounds g0 t in
  let* w := CellTree2d_validate_node_bounds g0 (set_Lmax 71 ((dec (-2319655) 8)) t) in
  Ok (forallb (fun x => x) v && negb (nth 73 w true))) = true.
Proof. vm_compute. reflexivity. Qed.

(** the mean of the three corners, as numpy sums them *)
Definition centroid (f : list Z) : point b64 :=
  let p k := nth (Z.to_nat (nth k f 0)) xy (Pt (Zb 0) (Zb 0)) in
  Pt (ndivraw (nadd (nadd (px (p 0%nat)) (px (p 1%nat))) (px (p 2%nat))) ((Zb 3)))
     (ndivraw (nadd (nadd (py (p 0%nat)) (py (p 1%nat))) (py (p 2%nat))) ((Zb 3))).

(** test_celltree.py:621-628 and 631-639, on one tree: 4 is the default n_buckets *)
Example test_find_centroids_and_to_dict_of_lists : built xy triangles (-1) 4 2 (fun t => let d := to_dict_of_lists t in
  Ok (finds t (map centroid triangles) None (iota (length triangles))
      && zlist_eqb (map fst d) (iota (length (nodes (celltree_data t)))) && (list_max (map (fun kv => length (snd kv)) d) =? 2)%nat)) = true.
Proof. vm_compute. reflexivity. Qed.
