(** Generated by tools/mkdata.py from /repo/testData: input files and meshes (gmsh 2.2) of the
    project's own test cases. Coordinates and areas are left out. For the large meshes only the
    boundary and one element of each material are kept ([_border]). *)
From Coq Require Import QArith.
From Verif Require Import Prelude Json Materials Graph ModelM Parser.
Open Scope list_scope.

Definition piece (a : Z) (v : list Z) : element Q := {| e_attr := a; e_verts := v; e_vol := 0%Q |}.
Definition flat_mesh (elems bdr : list (element Q)) : mesh Q := {| m_elems := elems; m_bdr := bdr; m_coord := fun _ => (0%Q, 0%Q) |}.

(** testData/empty_coax *)
Definition empty_coax : mesh Q := flat_mesh
  [piece 3 [57; 65; 51]; piece 3 [48; 64; 49]; piece 3 [52; 72; 62]; piece 3 [62; 77; 60]; piece 3 [54; 68; 55]; piece 3 [63; 79; 59];
   piece 3 [49; 71; 50]; piece 3 [56; 66; 53]; piece 3 [59; 75; 52]; piece 3 [58; 73; 61]; piece 3 [50; 69; 57]; piece 3 [51; 76; 58];
   piece 3 [60; 74; 56]; piece 3 [61; 78; 63]; piece 3 [55; 67; 48]; piece 3 [53; 70; 54]; piece 3 [47; 62; 60]; piece 3 [45; 59; 52];
   piece 3 [52; 62; 46]; piece 3 [40; 57; 51]; piece 3 [61; 63; 43]; piece 3 [44; 63; 59]; piece 3 [1; 60; 56]; piece 3 [51; 58; 41];
   piece 3 [48; 49; 37]; piece 3 [58; 61; 42]; piece 3 [49; 50; 38]; piece 3 [54; 55; 35]; piece 3 [33; 56; 53]; piece 3 [36; 55; 48];
   piece 3 [50; 57; 39]; piece 3 [53; 54; 34]; piece 3 [29; 82; 72]; piece 3 [74; 88; 0]; piece 3 [65; 85; 17]; piece 3 [11; 84; 64];
   piece 3 [17; 80; 65]; piece 3 [21; 94; 73]; piece 3 [23; 81; 78]; piece 3 [79; 81; 25]; piece 3 [15; 85; 69]; piece 3 [67; 93; 9];
   piece 3 [64; 83; 11]; piece 3 [77; 82; 31]; piece 3 [7; 93; 68]; piece 3 [5; 90; 70]; piece 3 [68; 90; 7]; piece 3 [75; 91; 27];
   piece 3 [72; 86; 29]; piece 3 [66; 87; 3]; piece 3 [3; 95; 66]; piece 3 [73; 89; 21]; piece 3 [76; 80; 19]; piece 3 [31; 88; 77];
   piece 3 [69; 92; 15]; piece 3 [19; 89; 76]; piece 3 [25; 91; 79]; piece 3 [9; 83; 67]; piece 3 [13; 92; 71]; piece 3 [78; 94; 23];
   piece 3 [27; 86; 75]; piece 3 [0; 87; 74]; piece 3 [70; 95; 5]; piece 3 [71; 84; 13]; piece 3 [18; 80; 17]; piece 3 [30; 82; 29];
   piece 3 [0; 88; 32]; piece 3 [12; 84; 11]; piece 3 [22; 94; 21]; piece 3 [19; 80; 18]; piece 3 [16; 85; 15]; piece 3 [24; 81; 23];
   piece 3 [25; 81; 24]; piece 3 [17; 85; 16]; piece 3 [11; 83; 10]; piece 3 [21; 89; 20]; piece 3 [32; 88; 31]; piece 3 [3; 87; 2];
   piece 3 [8; 93; 7]; piece 3 [29; 86; 28]; piece 3 [4; 95; 3]; piece 3 [9; 93; 8]; piece 3 [15; 92; 14]; piece 3 [20; 89; 19];
   piece 3 [26; 91; 25]; piece 3 [6; 90; 5]; piece 3 [27; 91; 26]; piece 3 [28; 86; 27]; piece 3 [7; 90; 6]; piece 3 [10; 83; 9];
   piece 3 [31; 82; 30]; piece 3 [13; 84; 12]; piece 3 [23; 94; 22]; piece 3 [2; 87; 0]; piece 3 [5; 95; 4]; piece 3 [14; 92; 13];
   piece 3 [47; 60; 1]; piece 3 [46; 62; 47]; piece 3 [37; 49; 38]; piece 3 [43; 63; 44]; piece 3 [44; 59; 45]; piece 3 [35; 55; 36];
   piece 3 [40; 51; 41]; piece 3 [36; 48; 37]; piece 3 [42; 61; 43]; piece 3 [33; 53; 34]; piece 3 [39; 57; 40]; piece 3 [41; 58; 42];
   piece 3 [1; 56; 33]; piece 3 [38; 50; 39]; piece 3 [34; 54; 35]; piece 3 [45; 52; 46]; piece 3 [48; 83; 64]; piece 3 [49; 84; 71];
   piece 3 [64; 84; 49]; piece 3 [50; 92; 69]; piece 3 [67; 83; 48]; piece 3 [55; 93; 67]; piece 3 [66; 95; 53]; piece 3 [71; 92; 50];
   piece 3 [54; 90; 68]; piece 3 [56; 87; 66]; piece 3 [53; 95; 70]; piece 3 [70; 90; 54]; piece 3 [65; 80; 51]; piece 3 [68; 93; 55];
   piece 3 [57; 85; 65]; piece 3 [69; 85; 57]; piece 3 [58; 89; 73]; piece 3 [52; 86; 72]; piece 3 [75; 86; 52]; piece 3 [74; 87; 56];
   piece 3 [51; 80; 76]; piece 3 [76; 89; 58]; piece 3 [61; 94; 78]; piece 3 [59; 91; 75]; piece 3 [79; 91; 59]; piece 3 [60; 88; 74];
   piece 3 [72; 82; 62]; piece 3 [73; 94; 61]; piece 3 [62; 82; 77]; piece 3 [77; 88; 60]; piece 3 [78; 81; 63]; piece 3 [63; 81; 79]]%Z
  [piece 1 [0; 2]; piece 1 [2; 3]; piece 1 [3; 4]; piece 1 [4; 5]; piece 1 [5; 6]; piece 1 [6; 7];
   piece 1 [7; 8]; piece 1 [8; 9]; piece 1 [9; 10]; piece 1 [10; 11]; piece 1 [11; 12]; piece 1 [12; 13];
   piece 1 [13; 14]; piece 1 [14; 15]; piece 1 [15; 16]; piece 1 [16; 17]; piece 1 [17; 18]; piece 1 [18; 19];
   piece 1 [19; 20]; piece 1 [20; 21]; piece 1 [21; 22]; piece 1 [22; 23]; piece 1 [23; 24]; piece 1 [24; 25];
   piece 1 [25; 26]; piece 1 [26; 27]; piece 1 [27; 28]; piece 1 [28; 29]; piece 1 [29; 30]; piece 1 [30; 31];
   piece 1 [31; 32]; piece 1 [32; 0]; piece 2 [1; 33]; piece 2 [33; 34]; piece 2 [34; 35]; piece 2 [35; 36];
   piece 2 [36; 37]; piece 2 [37; 38]; piece 2 [38; 39]; piece 2 [39; 40]; piece 2 [40; 41]; piece 2 [41; 42];
   piece 2 [42; 43]; piece 2 [43; 44]; piece 2 [44; 45]; piece 2 [45; 46]; piece 2 [46; 47]; piece 2 [47; 1]]%Z.
Definition empty_coax_json : json Q := JObj [("analysis"%string, JObj [("exportFolder"%string, JStr "Results/empty_coax/"); ("exportParaViewSolution"%string, JBool true); ("order"%string, JInt 3)]); ("model"%string, JObj [("gmshFile"%string, JStr "empty_coax.msh"); ("materials"%string, JObj [("Conductor_0"%string, JObj [("tag"%string, JInt 1); ("type"%string, JStr "PEC")]); ("Conductor_1"%string, JObj [("tag"%string, JInt 2); ("type"%string, JStr "PEC")]); ("Vacuum_0"%string, JObj [("tag"%string, JInt 3); ("type"%string, JStr "Vacuum")])])])].

(** testData/partially_filled_coax *)
Definition partially_filled_coax : mesh Q := flat_mesh
  [piece 3 [42; 76; 23]; piece 3 [39; 75; 61]; piece 3 [77; 78; 52]; piece 3 [61; 81; 39]; piece 3 [23; 82; 42]; piece 3 [43; 80; 76];
   piece 3 [75; 79; 60]; piece 3 [52; 78; 51]; piece 3 [58; 79; 73]; piece 3 [74; 80; 45]; piece 3 [44; 80; 43]; piece 3 [60; 79; 59];
   piece 3 [50; 78; 72]; piece 3 [71; 77; 53]; piece 3 [59; 79; 58]; piece 3 [45; 80; 44]; piece 3 [51; 78; 50]; piece 3 [53; 77; 52];
   piece 3 [63; 68; 28]; piece 3 [34; 67; 64]; piece 3 [27; 69; 63]; piece 3 [64; 70; 35]; piece 3 [65; 66; 1]; piece 3 [68; 72; 29];
   piece 3 [33; 71; 67]; piece 3 [57; 73; 70]; piece 3 [69; 74; 46]; piece 3 [70; 73; 36]; piece 3 [26; 74; 69]; piece 3 [32; 77; 71];
   piece 3 [72; 78; 30]; piece 3 [31; 78; 77]; piece 3 [76; 80; 24]; piece 3 [38; 79; 75]; piece 3 [25; 80; 74]; piece 3 [73; 79; 37];
   piece 3 [43; 76; 42]; piece 3 [61; 75; 60]; piece 3 [22; 82; 23]; piece 3 [39; 81; 40]; piece 3 [49; 72; 68]; piece 3 [67; 71; 54];
   piece 3 [58; 73; 57]; piece 3 [46; 74; 45]; piece 3 [50; 72; 49]; piece 3 [54; 71; 53]; piece 3 [56; 70; 64]; piece 3 [63; 69; 47];
   piece 3 [48; 68; 63]; piece 3 [64; 67; 55]; piece 3 [2; 66; 65]; piece 3 [57; 70; 56]; piece 3 [47; 69; 46]; piece 3 [49; 68; 48];
   piece 3 [55; 67; 54]; piece 3 [2; 65; 62]; piece 3 [41; 66; 2]; piece 3 [42; 82; 41]; piece 3 [62; 81; 61]; piece 3 [56; 64; 55];
   piece 3 [48; 63; 47]; piece 3 [27; 63; 28]; piece 3 [34; 64; 35]; piece 3 [1; 66; 22]; piece 3 [40; 65; 1]; piece 3 [33; 67; 34];
   piece 3 [28; 68; 29]; piece 3 [26; 69; 27]; piece 3 [35; 70; 36]; piece 3 [32; 71; 33]; piece 3 [29; 72; 30]; piece 3 [36; 73; 37];
   piece 3 [25; 74; 26]; piece 3 [38; 75; 39]; piece 3 [23; 76; 24]; piece 3 [31; 77; 32]; piece 3 [30; 78; 31]; piece 3 [24; 80; 25];
   piece 3 [37; 79; 38]; piece 3 [40; 81; 65]; piece 3 [66; 82; 22]; piece 3 [65; 81; 62]; piece 3 [41; 82; 66]; piece 4 [28; 94; 27];
   piece 4 [27; 97; 26]; piece 4 [26; 100; 25]; piece 4 [29; 87; 28]; piece 4 [32; 88; 31]; piece 4 [25; 93; 24]; piece 4 [31; 89; 30];
   piece 4 [34; 86; 33]; piece 4 [40; 83; 39]; piece 4 [24; 98; 23]; piece 4 [22; 84; 1]; piece 4 [37; 85; 36]; piece 4 [23; 96; 22];
   piece 4 [35; 102; 34]; piece 4 [36; 101; 35]; piece 4 [30; 91; 29]; piece 4 [33; 99; 32]; piece 4 [39; 92; 38]; piece 4 [1; 95; 40];
   piece 4 [38; 90; 37]; piece 4 [9; 94; 87]; piece 4 [93; 100; 6]; piece 4 [14; 99; 86]; piece 4 [7; 100; 97]; piece 4 [12; 89; 88];
   piece 4 [20; 92; 83]; piece 4 [84; 96; 3]; piece 4 [87; 91; 10]; piece 4 [17; 101; 85]; piece 4 [0; 95; 84]; piece 4 [86; 102; 15];
   piece 4 [5; 98; 93]; piece 4 [8; 97; 94]; piece 4 [11; 91; 89]; piece 4 [85; 90; 18]; piece 4 [83; 95; 21]; piece 4 [96; 98; 4];
   piece 4 [16; 102; 101]; piece 4 [88; 99; 13]; piece 4 [90; 92; 19]; piece 4 [20; 83; 21]; piece 4 [17; 85; 18]; piece 4 [0; 84; 3];
   piece 4 [14; 86; 15]; piece 4 [11; 89; 12]; piece 4 [12; 88; 13]; piece 4 [19; 92; 20]; piece 4 [9; 87; 10]; piece 4 [8; 94; 9];
   piece 4 [13; 99; 14]; piece 4 [6; 100; 7]; piece 4 [7; 97; 8]; piece 4 [21; 95; 0]; piece 4 [10; 91; 11]; piece 4 [4; 98; 5];
   piece 4 [16; 101; 17]; piece 4 [5; 93; 6]; piece 4 [15; 102; 16]; piece 4 [3; 96; 4]; piece 4 [18; 90; 19]; piece 4 [87; 94; 28];
   piece 4 [25; 100; 93]; piece 4 [88; 89; 31]; piece 4 [86; 99; 33]; piece 4 [97; 100; 26]; piece 4 [22; 96; 84]; piece 4 [83; 92; 39];
   piece 4 [94; 97; 27]; piece 4 [34; 102; 86]; piece 4 [101; 102; 35]; piece 4 [93; 98; 24]; piece 4 [85; 101; 36]; piece 4 [23; 98; 96];
   piece 4 [89; 91; 30]; piece 4 [29; 91; 87]; piece 4 [32; 99; 88]; piece 4 [84; 95; 1]; piece 4 [37; 90; 85]; piece 4 [40; 95; 83];
   piece 4 [38; 92; 90]]%Z
  [piece 2 [0; 3]; piece 2 [3; 4]; piece 2 [4; 5]; piece 2 [5; 6]; piece 2 [6; 7]; piece 2 [7; 8];
   piece 2 [8; 9]; piece 2 [9; 10]; piece 2 [10; 11]; piece 2 [11; 12]; piece 2 [12; 13]; piece 2 [13; 14];
   piece 2 [14; 15]; piece 2 [15; 16]; piece 2 [16; 17]; piece 2 [17; 18]; piece 2 [18; 19]; piece 2 [19; 20];
   piece 2 [20; 21]; piece 2 [21; 0]; piece 1 [2; 41]; piece 1 [41; 42]; piece 1 [42; 43]; piece 1 [43; 44];
   piece 1 [44; 45]; piece 1 [45; 46]; piece 1 [46; 47]; piece 1 [47; 48]; piece 1 [48; 49]; piece 1 [49; 50];
   piece 1 [50; 51]; piece 1 [51; 52]; piece 1 [52; 53]; piece 1 [53; 54]; piece 1 [54; 55]; piece 1 [55; 56];
   piece 1 [56; 57]; piece 1 [57; 58]; piece 1 [58; 59]; piece 1 [59; 60]; piece 1 [60; 61]; piece 1 [61; 62];
   piece 1 [62; 2]]%Z.
Definition partially_filled_coax_json : json Q := JObj [("analysis"%string, JObj [("exportFolder"%string, JStr "Results/partially_filled_coax/"); ("exportParaViewSolution"%string, JBool true); ("order"%string, JInt 3)]); ("model"%string, JObj [("gmshFile"%string, JStr "partially_filled_coax.msh"); ("materials"%string, JObj [("Conductor_0"%string, JObj [("tag"%string, JInt 1); ("type"%string, JStr "PEC")]); ("Conductor_1"%string, JObj [("tag"%string, JInt 2); ("type"%string, JStr "PEC")]); ("Dielectric_1"%string, JObj [("eps_r"%string, JFloat (4 # 1)%Q); ("tag"%string, JInt 4); ("type"%string, JStr "Dielectric")]); ("Vacuum_0"%string, JObj [("tag"%string, JInt 3); ("type"%string, JStr "Vacuum")])])])].

(** testData/nested_coax *)
Definition nested_coax : mesh Q := flat_mesh
  [piece 4 [211; 227; 120]; piece 4 [209; 226; 114]; piece 4 [212; 228; 104]; piece 4 [218; 234; 93]; piece 4 [210; 225; 116]; piece 4 [221; 237; 91];
   piece 4 [213; 229; 106]; piece 4 [216; 236; 84]; piece 4 [214; 232; 108]; piece 4 [215; 230; 110]; piece 4 [220; 235; 89]; piece 4 [217; 231; 82];
   piece 4 [219; 233; 100]; piece 4 [222; 238; 86]; piece 4 [223; 239; 96]; piece 4 [201; 203; 118]; piece 4 [98; 206; 204]; piece 4 [202; 205; 113];
   piece 4 [207; 208; 103]; piece 4 [204; 223; 98]; piece 4 [200; 222; 88]; piece 4 [203; 210; 118]; piece 4 [208; 219; 102]; piece 4 [205; 215; 112];
   piece 4 [19; 182; 165]; piece 4 [2; 211; 120]; piece 4 [115; 209; 114]; piece 4 [105; 212; 104]; piece 4 [117; 210; 116]; piece 4 [85; 216; 84];
   piece 4 [107; 213; 106]; piece 4 [94; 218; 93]; piece 4 [92; 221; 91]; piece 4 [90; 220; 89]; piece 4 [111; 215; 110]; piece 4 [83; 217; 82];
   piece 4 [109; 214; 108]; piece 4 [101; 219; 100]; piece 4 [87; 222; 86]; piece 4 [97; 223; 96]; piece 4 [119; 201; 118]; piece 4 [113; 205; 112];
   piece 4 [99; 206; 98]; piece 4 [103; 208; 102]; piece 4 [98; 223; 97]; piece 4 [118; 210; 117]; piece 4 [102; 219; 101]; piece 4 [112; 215; 111];
   piece 4 [88; 222; 87]; piece 4 [18; 182; 19]; piece 4 [16; 189; 174]; piece 4 [39; 180; 164]; piece 4 [29; 185; 168]; piece 4 [14; 184; 169];
   piece 4 [7; 183; 172]; piece 4 [0; 190; 167]; piece 4 [23; 191; 178]; piece 4 [27; 193; 163]; piece 4 [37; 194; 160]; piece 4 [31; 196; 173];
   piece 4 [5; 198; 177]; piece 4 [12; 199; 176]; piece 4 [33; 197; 175]; piece 4 [9; 195; 179]; piece 4 [182; 239; 223]; piece 4 [94; 224; 218];
   piece 4 [88; 235; 200]; piece 4 [115; 225; 209]; piece 4 [105; 229; 212]; piece 4 [2; 231; 211]; piece 4 [109; 230; 214]; piece 4 [90; 237; 220];
   piece 4 [107; 232; 213]; piece 4 [83; 236; 217]; piece 4 [92; 234; 221]; piece 4 [85; 238; 216]; piece 4 [113; 226; 202]; piece 4 [119; 227; 201];
   piece 4 [103; 228; 207]; piece 4 [99; 233; 206]; piece 4 [17; 181; 18]; piece 4 [13; 184; 14]; piece 4 [38; 180; 39]; piece 4 [42; 190; 0];
   piece 4 [6; 183; 7]; piece 4 [15; 189; 16]; piece 4 [28; 185; 29]; piece 4 [22; 191; 23]; piece 4 [4; 198; 5]; piece 4 [26; 193; 27];
   piece 4 [30; 196; 31]; piece 4 [32; 197; 33]; piece 4 [36; 194; 37]; piece 4 [11; 199; 12]; piece 4 [8; 195; 9]; piece 4 [95; 224; 94];
   piece 4 [116; 225; 115]; piece 4 [106; 229; 105]; piece 4 [114; 226; 113]; piece 4 [120; 227; 119]; piece 4 [89; 235; 88]; piece 4 [104; 228; 103];
   piece 4 [82; 231; 2]; piece 4 [110; 230; 109]; piece 4 [108; 232; 107]; piece 4 [91; 237; 90]; piece 4 [100; 233; 99]; piece 4 [93; 234; 92];
   piece 4 [84; 236; 83]; piece 4 [86; 238; 85]; piece 4 [181; 182; 18]; piece 4 [189; 234; 218]; piece 4 [193; 228; 212]; piece 4 [198; 231; 217];
   piece 4 [190; 227; 211]; piece 4 [183; 236; 216]; piece 4 [185; 229; 213]; piece 4 [180; 225; 210]; piece 4 [184; 237; 221]; piece 4 [191; 233; 219];
   piece 4 [194; 226; 209]; piece 4 [196; 232; 214]; piece 4 [197; 230; 215]; piece 4 [199; 235; 220]; piece 4 [195; 238; 222]; piece 4 [95; 239; 224];
   piece 4 [96; 239; 95]; piece 4 [182; 223; 165]; piece 4 [10; 179; 171]; piece 4 [41; 187; 162]; piece 4 [35; 186; 161]; piece 4 [165; 188; 20];
   piece 4 [178; 192; 24]; piece 4 [164; 187; 40]; piece 4 [25; 192; 166]; piece 4 [175; 186; 34]; piece 4 [21; 188; 170]; piece 4 [27; 163; 28];
   piece 4 [16; 174; 17]; piece 4 [12; 176; 13]; piece 4 [37; 160; 38]; piece 4 [25; 166; 26]; piece 4 [39; 164; 40]; piece 4 [0; 167; 4];
   piece 4 [29; 168; 30]; piece 4 [35; 161; 36]; piece 4 [41; 162; 42]; piece 4 [5; 177; 6]; piece 4 [23; 178; 24]; piece 4 [7; 172; 8];
   piece 4 [14; 169; 15]; piece 4 [10; 171; 11]; piece 4 [21; 170; 22]; piece 4 [31; 173; 32]; piece 4 [33; 175; 34]; piece 4 [19; 165; 20];
   piece 4 [9; 179; 10]; piece 4 [40; 187; 41]; piece 4 [20; 188; 21]; piece 4 [34; 186; 35]; piece 4 [24; 192; 25]; piece 4 [174; 181; 17];
   piece 4 [161; 194; 36]; piece 4 [176; 184; 13]; piece 4 [163; 185; 28]; piece 4 [160; 180; 38]; piece 4 [177; 183; 6]; piece 4 [168; 196; 30];
   piece 4 [162; 190; 42]; piece 4 [171; 199; 11]; piece 4 [170; 191; 22]; piece 4 [166; 193; 26]; piece 4 [173; 197; 32]; piece 4 [169; 189; 15];
   piece 4 [167; 198; 4]; piece 4 [172; 195; 8]; piece 4 [180; 210; 164]; piece 4 [185; 213; 168]; piece 4 [190; 211; 167]; piece 4 [194; 209; 160];
   piece 4 [193; 212; 163]; piece 4 [189; 218; 174]; piece 4 [191; 219; 178]; piece 4 [183; 216; 172]; piece 4 [184; 221; 169]; piece 4 [196; 214; 173];
   piece 4 [197; 215; 175]; piece 4 [198; 217; 177]; piece 4 [199; 220; 176]; piece 4 [195; 222; 179]; piece 4 [187; 203; 201]; piece 4 [186; 205; 202];
   piece 4 [192; 208; 207]; piece 4 [204; 206; 188]; piece 4 [165; 223; 204]; piece 4 [175; 215; 205]; piece 4 [164; 210; 203]; piece 4 [178; 219; 208];
   piece 4 [179; 222; 200]; piece 4 [179; 200; 171]; piece 4 [187; 201; 162]; piece 4 [186; 202; 161]; piece 4 [164; 203; 187]; piece 4 [165; 204; 188];
   piece 4 [175; 205; 186]; piece 4 [192; 207; 166]; piece 4 [188; 206; 170]; piece 4 [178; 208; 192]; piece 4 [224; 239; 181]; piece 4 [200; 235; 171];
   piece 4 [202; 226; 161]; piece 4 [201; 227; 162]; piece 4 [206; 233; 170]; piece 4 [207; 228; 166]; piece 4 [218; 224; 174]; piece 4 [209; 225; 160];
   piece 4 [213; 232; 168]; piece 4 [214; 230; 173]; piece 4 [220; 237; 176]; piece 4 [212; 229; 163]; piece 4 [211; 231; 167]; piece 4 [217; 236; 177];
   piece 4 [221; 234; 169]; piece 4 [216; 238; 172]; piece 4 [174; 224; 181]; piece 4 [161; 226; 194]; piece 4 [160; 225; 180]; piece 4 [162; 227; 190];
   piece 4 [166; 228; 193]; piece 4 [163; 229; 185]; piece 4 [173; 230; 197]; piece 4 [171; 235; 199]; piece 4 [177; 236; 183]; piece 4 [167; 231; 198];
   piece 4 [168; 232; 196]; piece 4 [169; 234; 189]; piece 4 [170; 233; 191]; piece 4 [176; 237; 184]; piece 4 [172; 238; 195]; piece 4 [181; 239; 182];
   piece 4 [347; 386; 348]; piece 4 [423; 426; 262]; piece 4 [305; 351; 254]; piece 4 [254; 377; 305]; piece 4 [350; 386; 347]; piece 4 [47; 458; 266];
   piece 4 [286; 419; 385]; piece 4 [385; 452; 286]; piece 4 [384; 452; 385]; piece 4 [248; 425; 309]; piece 4 [368; 472; 392]; piece 4 [280; 431; 288];
   piece 4 [267; 386; 375]; piece 4 [362; 365; 331]; piece 4 [309; 379; 248]; piece 4 [262; 450; 423]; piece 4 [273; 449; 303]; piece 4 [331; 378; 362];
   piece 4 [334; 447; 446]; piece 4 [375; 388; 267]; piece 4 [303; 405; 273]; piece 4 [284; 419; 286]; piece 4 [411; 445; 401]; piece 4 [305; 377; 302];
   piece 4 [332; 447; 334]; piece 4 [368; 392; 370]; piece 4 [371; 380; 251]; piece 4 [386; 387; 348]; piece 4 [365; 447; 331]; piece 4 [334; 446; 415];
   piece 4 [401; 445; 264]; piece 4 [262; 426; 389]; piece 4 [369; 413; 407]; piece 4 [446; 447; 258]; piece 4 [288; 431; 292]; piece 4 [135; 293; 245];
   piece 4 [311; 379; 309]; piece 4 [287; 481; 293]; piece 4 [346; 421; 343]; piece 4 [322; 380; 371]; piece 4 [304; 305; 302]; piece 4 [302; 377; 299];
   piece 4 [309; 425; 306]; piece 4 [70; 388; 69]; piece 4 [267; 388; 70]; piece 4 [69; 388; 270]; piece 4 [415; 446; 79]; piece 4 [372; 375; 350];
   piece 4 [299; 377; 295]; piece 4 [287; 293; 278]; piece 4 [337; 370; 340]; piece 4 [427; 481; 287]; piece 4 [329; 378; 331]; piece 4 [418; 464; 402];
   piece 4 [350; 417; 372]; piece 4 [337; 381; 370]; piece 4 [274; 418; 402]; piece 4 [308; 309; 306]; piece 4 [134; 293; 135]; piece 4 [310; 311; 309];
   piece 4 [392; 472; 291]; piece 4 [281; 414; 284]; piece 4 [266; 430; 428]; piece 4 [391; 430; 266]; piece 4 [56; 268; 55]; piece 4 [67; 263; 66];
   piece 4 [61; 269; 60]; piece 4 [50; 271; 49]; piece 4 [65; 261; 64]; piece 4 [63; 274; 62]; piece 4 [69; 270; 68]; piece 4 [71; 267; 70];
   piece 4 [54; 272; 53]; piece 4 [43; 265; 1]; piece 4 [45; 273; 44]; piece 4 [74; 262; 73]; piece 4 [47; 266; 46]; piece 4 [52; 275; 51];
   piece 4 [59; 264; 58]; piece 4 [78; 258; 77]; piece 4 [81; 260; 80]; piece 4 [76; 259; 75]; piece 4 [251; 412; 371]; piece 4 [348; 426; 345];
   piece 4 [267; 387; 386]; piece 4 [406; 407; 274]; piece 4 [304; 306; 305]; piece 4 [393; 424; 292]; piece 4 [345; 426; 346]; piece 4 [289; 427; 287];
   piece 4 [375; 386; 350]; piece 4 [275; 383; 382]; piece 4 [346; 422; 421]; piece 4 [329; 390; 378]; piece 4 [152; 342; 240]; piece 4 [154; 358; 241];
   piece 4 [121; 294; 254]; piece 4 [331; 447; 332]; piece 4 [414; 419; 284]; piece 4 [147; 353; 250]; piece 4 [403; 465; 450]; piece 4 [314; 316; 312];
   piece 4 [429; 437; 298]; piece 4 [408; 468; 448]; piece 4 [280; 440; 431]; piece 4 [317; 318; 316]; piece 4 [344; 409; 349]; piece 4 [370; 392; 340];
   piece 4 [295; 377; 294]; piece 4 [341; 464; 418]; piece 4 [316; 456; 312]; piece 4 [308; 310; 309]; piece 4 [151; 342; 152]; piece 4 [153; 358; 154];
   piece 4 [3; 294; 121]; piece 4 [343; 421; 342]; piece 4 [259; 465; 403]; piece 4 [270; 468; 408]; piece 4 [281; 284; 283]; piece 4 [358; 360; 359];
   piece 4 [275; 480; 383]; piece 4 [318; 454; 316]; piece 4 [146; 353; 147]; piece 4 [316; 460; 456]; piece 4 [133; 276; 134]; piece 4 [50; 399; 271];
   piece 4 [274; 402; 62]; piece 4 [275; 399; 51]; piece 4 [81; 404; 260]; piece 4 [67; 408; 263]; piece 4 [258; 396; 77]; piece 4 [268; 400; 55];
   piece 4 [63; 406; 274]; piece 4 [65; 398; 261]; piece 4 [74; 403; 262]; piece 4 [270; 408; 68]; piece 4 [76; 396; 259]; piece 4 [266; 397; 46];
   piece 4 [263; 398; 66]; piece 4 [273; 405; 44]; piece 4 [45; 397; 273]; piece 4 [265; 404; 1]; piece 4 [54; 400; 272]; piece 4 [59; 401; 264];
   piece 4 [269; 401; 60]; piece 4 [261; 406; 64]; piece 4 [259; 403; 75]; piece 4 [61; 402; 269]; piece 4 [43; 405; 265]; piece 4 [360; 361; 359];
   piece 4 [344; 349; 347]; piece 4 [353; 355; 354]; piece 4 [355; 356; 354]; piece 4 [244; 380; 322]; piece 4 [315; 438; 434]; piece 4 [346; 423; 422];
   piece 4 [284; 286; 285]; piece 4 [407; 462; 369]; piece 4 [310; 312; 311]; piece 4 [349; 417; 350]; piece 4 [57; 424; 393]; piece 4 [305; 425; 351];
   piece 4 [56; 393; 268]; piece 4 [243; 395; 394]; piece 4 [303; 304; 302]; piece 4 [322; 371; 325]; piece 4 [327; 390; 329]; piece 4 [370; 381; 246];
   piece 4 [409; 410; 349]; piece 4 [382; 435; 275]; piece 4 [301; 302; 299]; piece 4 [256; 381; 337]; piece 4 [276; 293; 134]; piece 4 [378; 390; 241];
   piece 4 [387; 389; 348]; piece 4 [294; 377; 254]; piece 4 [280; 287; 278]; piece 4 [454; 460; 316]; piece 4 [407; 418; 274]; piece 4 [250; 417; 410];
   piece 4 [358; 359; 241]; piece 4 [356; 432; 374]; piece 4 [452; 466; 286]; piece 4 [328; 395; 243]; piece 4 [288; 289; 287]; piece 4 [353; 354; 250];
   piece 4 [260; 415; 80]; piece 4 [314; 317; 316]; piece 4 [383; 480; 272]; piece 4 [434; 438; 271]; piece 4 [361; 422; 364]; piece 4 [48; 458; 47];
   piece 4 [307; 308; 306]; piece 4 [272; 480; 53]; piece 4 [52; 480; 275]; piece 4 [403; 450; 262]; piece 4 [333; 437; 429]; piece 4 [290; 291; 289];
   piece 4 [303; 463; 405]; piece 4 [292; 431; 393]; piece 4 [362; 378; 359]; piece 4 [408; 448; 263]; piece 4 [372; 417; 354]; piece 4 [360; 422; 361];
   piece 4 [448; 470; 263]; piece 4 [264; 424; 58]; piece 4 [317; 319; 318]; piece 4 [340; 392; 376]; piece 4 [349; 350; 347]; piece 4 [284; 285; 283];
   piece 4 [399; 420; 271]; piece 4 [242; 394; 296]; piece 4 [306; 425; 305]; piece 4 [389; 426; 348]; piece 4 [278; 293; 276]; piece 4 [342; 421; 240];
   piece 4 [266; 428; 397]; piece 4 [355; 432; 356]; piece 4 [77; 396; 76]; piece 4 [51; 399; 50]; piece 4 [1; 404; 81]; piece 4 [62; 402; 61];
   piece 4 [55; 400; 54]; piece 4 [66; 398; 65]; piece 4 [68; 408; 67]; piece 4 [44; 405; 43]; piece 4 [46; 397; 45]; piece 4 [60; 401; 59];
   piece 4 [64; 406; 63]; piece 4 [75; 403; 74]; piece 4 [260; 469; 451]; piece 4 [252; 409; 344]; piece 4 [286; 382; 285]; piece 4 [243; 394; 158];
   piece 4 [159; 394; 242]; piece 4 [73; 467; 72]; piece 4 [324; 416; 321]; piece 4 [143; 380; 244]; piece 4 [251; 380; 142]; piece 4 [141; 335; 251];
   piece 4 [244; 320; 144]; piece 4 [256; 335; 140]; piece 4 [145; 320; 247]; piece 4 [254; 351; 122]; piece 4 [123; 351; 248]; piece 4 [257; 366; 131];
   piece 4 [132; 366; 249]; piece 4 [128; 357; 253]; piece 4 [255; 357; 127]; piece 4 [253; 352; 129]; piece 4 [130; 352; 257]; piece 4 [245; 367; 136];
   piece 4 [137; 367; 246]; piece 4 [250; 410; 148]; piece 4 [413; 476; 407]; piece 4 [57; 393; 56]; piece 4 [150; 409; 252]; piece 4 [248; 379; 124];
   piece 4 [154; 241; 155]; piece 4 [157; 243; 158]; piece 4 [139; 256; 140]; piece 4 [123; 248; 124]; piece 4 [130; 257; 131]; piece 4 [137; 246; 138];
   piece 4 [152; 240; 153]; piece 4 [128; 253; 129]; piece 4 [141; 251; 142]; piece 4 [126; 255; 127]; piece 4 [132; 249; 133]; piece 4 [135; 245; 136];
   piece 4 [143; 244; 144]; piece 4 [145; 247; 146]; piece 4 [150; 252; 151]; piece 4 [159; 242; 3]; piece 4 [121; 254; 122]; piece 4 [147; 250; 148];
   piece 4 [313; 314; 312]; piece 4 [301; 303; 302]; piece 4 [371; 413; 325]; piece 4 [246; 381; 138]; piece 4 [139; 381; 256]; piece 4 [385; 419; 257];
   piece 4 [157; 327; 243]; piece 4 [241; 390; 155]; piece 4 [339; 412; 336]; piece 4 [271; 438; 49]; piece 4 [369; 462; 459]; piece 4 [80; 415; 79];
   piece 4 [304; 307; 306]; piece 4 [366; 419; 414]; piece 4 [158; 394; 159]; piece 4 [356; 372; 354]; piece 4 [244; 321; 320]; piece 4 [256; 336; 335];
   piece 4 [72; 467; 457]; piece 4 [149; 410; 409]; piece 4 [142; 380; 143]; piece 4 [144; 320; 145]; piece 4 [140; 335; 141]; piece 4 [122; 351; 123];
   piece 4 [131; 366; 132]; piece 4 [127; 357; 128]; piece 4 [129; 352; 130]; piece 4 [136; 367; 137]; piece 4 [361; 362; 359]; piece 4 [346; 426; 423];
   piece 4 [148; 410; 149]; piece 4 [422; 423; 364]; piece 4 [257; 419; 366]; piece 4 [149; 409; 150]; piece 4 [293; 481; 245]; piece 4 [280; 288; 287];
   piece 4 [336; 412; 335]; piece 4 [366; 414; 249]; piece 4 [71; 474; 267]; piece 4 [382; 466; 435]; piece 4 [124; 379; 125]; piece 4 [321; 416; 320];
   piece 4 [58; 424; 57]; piece 4 [138; 381; 139]; piece 4 [126; 441; 255]; piece 4 [156; 327; 157]; piece 4 [352; 385; 257]; piece 4 [418; 476; 473];
   piece 4 [155; 390; 156]; piece 4 [395; 429; 298]; piece 4 [156; 390; 327]; piece 4 [367; 368; 246]; piece 4 [404; 444; 260]; piece 4 [245; 427; 367];
   piece 4 [367; 427; 368]; piece 4 [277; 281; 279]; piece 4 [265; 461; 404]; piece 4 [384; 385; 352]; piece 4 [393; 431; 268]; piece 4 [288; 290; 289];
   piece 4 [392; 411; 376]; piece 4 [72; 474; 71]; piece 4 [49; 438; 48]; piece 4 [335; 412; 251]; piece 4 [253; 384; 352]; piece 4 [262; 467; 73];
   piece 4 [394; 395; 296]; piece 4 [332; 333; 330]; piece 4 [320; 416; 247]; piece 4 [327; 328; 243]; piece 4 [359; 378; 241]; piece 4 [296; 395; 298];
   piece 4 [361; 364; 363]; piece 4 [356; 374; 373]; piece 4 [269; 464; 376]; piece 4 [379; 441; 125]; piece 4 [79; 446; 78]; piece 4 [78; 446; 258];
   piece 4 [267; 474; 387]; piece 4 [407; 476; 418]; piece 4 [410; 417; 349]; piece 4 [252; 342; 151]; piece 4 [240; 358; 153]; piece 4 [242; 294; 3];
   piece 4 [244; 322; 321]; piece 4 [281; 283; 282]; piece 4 [242; 296; 295]; piece 4 [351; 425; 248]; piece 4 [311; 441; 379]; piece 4 [260; 451; 415];
   piece 4 [296; 298; 297]; piece 4 [401; 477; 411]; piece 4 [247; 353; 146]; piece 4 [323; 324; 321]; piece 4 [310; 313; 312]; piece 4 [345; 346; 343];
   piece 4 [249; 276; 133]; piece 4 [297; 299; 295]; piece 4 [440; 455; 431]; piece 4 [252; 344; 343]; piece 4 [327; 329; 328]; piece 4 [291; 411; 392];
   piece 4 [373; 375; 372]; piece 4 [441; 456; 255]; piece 4 [344; 347; 345]; piece 4 [307; 428; 308]; piece 4 [313; 391; 315]; piece 4 [363; 365; 362];
   piece 4 [256; 337; 336]; piece 4 [329; 331; 330]; piece 4 [354; 417; 250]; piece 4 [300; 301; 299]; piece 4 [340; 376; 341]; piece 4 [338; 339; 336];
   piece 4 [368; 370; 246]; piece 4 [322; 325; 323]; piece 4 [325; 369; 326]; piece 4 [457; 474; 72]; piece 4 [277; 278; 276]; piece 4 [328; 429; 395];
   piece 4 [245; 481; 427]; piece 4 [313; 315; 314]; piece 4 [288; 292; 290]; piece 4 [277; 414; 281]; piece 4 [279; 280; 278]; piece 4 [253; 454; 384];
   piece 4 [382; 383; 285]; piece 4 [125; 441; 126]; piece 4 [317; 420; 319]; piece 4 [325; 413; 369]; piece 4 [400; 443; 272]; piece 4 [303; 449; 304];
   piece 4 [332; 334; 333]; piece 4 [375; 483; 388]; piece 4 [376; 477; 269]; piece 4 [356; 373; 372]; piece 4 [268; 455; 400]; piece 4 [406; 462; 407];
   piece 4 [361; 363; 362]; piece 4 [432; 433; 374]; piece 4 [337; 340; 338]; piece 4 [281; 282; 279]; piece 4 [347; 348; 345]; piece 4 [333; 429; 330];
   piece 4 [331; 332; 330]; piece 4 [277; 279; 278]; piece 4 [340; 341; 338]; piece 4 [263; 442; 398]; piece 4 [296; 297; 295]; piece 4 [252; 343; 342];
   piece 4 [242; 295; 294]; piece 4 [325; 326; 323]; piece 4 [275; 435; 399]; piece 4 [297; 300; 299]; piece 4 [431; 455; 268]; piece 4 [249; 277; 276];
   piece 4 [399; 435; 420]; piece 4 [329; 330; 328]; piece 4 [322; 323; 321]; piece 4 [312; 456; 311]; piece 4 [404; 461; 444]; piece 4 [344; 345; 343];
   piece 4 [398; 459; 261]; piece 4 [249; 414; 277]; piece 4 [337; 338; 336]; piece 4 [428; 430; 308]; piece 4 [384; 454; 318]; piece 4 [420; 435; 319];
   piece 4 [240; 360; 358]; piece 4 [459; 462; 261]; piece 4 [291; 472; 289]; piece 4 [247; 355; 353]; piece 4 [451; 469; 437]; piece 4 [324; 433; 432];
   piece 4 [391; 458; 315]; piece 4 [389; 467; 262]; piece 4 [396; 453; 259]; piece 4 [376; 464; 341]; piece 4 [308; 430; 310]; piece 4 [258; 478; 396];
   piece 4 [313; 430; 391]; piece 4 [247; 416; 355]; piece 4 [444; 469; 260]; piece 4 [314; 434; 317]; piece 4 [397; 482; 273]; piece 4 [286; 466; 382];
   piece 4 [261; 462; 406]; piece 4 [405; 463; 265]; piece 4 [324; 439; 433]; piece 4 [315; 458; 438]; piece 4 [315; 434; 314]; piece 4 [402; 464; 269];
   piece 4 [269; 477; 401]; piece 4 [357; 460; 454]; piece 4 [53; 480; 52]; piece 4 [298; 437; 436]; piece 4 [240; 421; 360]; piece 4 [421; 422; 360];
   piece 4 [428; 482; 397]; piece 4 [298; 436; 297]; piece 4 [283; 443; 282]; piece 4 [310; 430; 313]; piece 4 [330; 429; 328]; piece 4 [272; 471; 383];
   piece 4 [415; 451; 334]; piece 4 [323; 439; 324]; piece 4 [388; 483; 270]; piece 4 [418; 473; 341]; piece 4 [357; 454; 253]; piece 4 [324; 432; 416];
   piece 4 [317; 434; 420]; piece 4 [435; 466; 319]; piece 4 [318; 452; 384]; piece 4 [319; 452; 318]; piece 4 [279; 440; 280]; piece 4 [416; 432; 355];
   piece 4 [297; 436; 300]; piece 4 [326; 439; 323]; piece 4 [424; 475; 292]; piece 4 [456; 460; 255]; piece 4 [290; 445; 291]; piece 4 [282; 440; 279];
   piece 4 [255; 460; 357]; piece 4 [438; 458; 48]; piece 4 [423; 450; 364]; piece 4 [304; 449; 307]; piece 4 [412; 479; 371]; piece 4 [433; 470; 448];
   piece 4 [400; 455; 443]; piece 4 [383; 471; 285]; piece 4 [326; 442; 439]; piece 4 [341; 473; 338]; piece 4 [291; 445; 411]; piece 4 [436; 444; 300];
   piece 4 [334; 451; 333]; piece 4 [420; 434; 271]; piece 4 [443; 471; 272]; piece 4 [363; 453; 365]; piece 4 [311; 456; 441]; piece 4 [373; 483; 375];
   piece 4 [442; 459; 398]; piece 4 [387; 457; 389]; piece 4 [292; 475; 290]; piece 4 [371; 479; 413]; piece 4 [433; 448; 374]; piece 4 [283; 471; 443];
   piece 4 [448; 468; 374]; piece 4 [333; 451; 437]; piece 4 [326; 459; 442]; piece 4 [307; 482; 428]; piece 4 [427; 472; 368]; piece 4 [339; 479; 412];
   piece 4 [443; 455; 282]; piece 4 [450; 465; 364]; piece 4 [387; 474; 457]; piece 4 [444; 461; 300]; piece 4 [473; 476; 339]; piece 4 [300; 461; 301];
   piece 4 [369; 459; 326]; piece 4 [301; 463; 303]; piece 4 [364; 465; 363]; piece 4 [264; 475; 424]; piece 4 [374; 468; 373]; piece 4 [285; 471; 283];
   piece 4 [461; 463; 301]; piece 4 [363; 465; 453]; piece 4 [263; 470; 442]; piece 4 [282; 455; 440]; piece 4 [338; 473; 339]; piece 4 [476; 479; 339];
   piece 4 [453; 465; 259]; piece 4 [411; 477; 376]; piece 4 [439; 470; 433]; piece 4 [273; 482; 449]; piece 4 [437; 469; 436]; piece 4 [442; 470; 439];
   piece 4 [436; 469; 444]; piece 4 [265; 463; 461]; piece 4 [453; 478; 365]; piece 4 [365; 478; 447]; piece 4 [413; 479; 476]; piece 4 [290; 475; 445];
   piece 4 [449; 482; 307]; piece 4 [457; 467; 389]; piece 4 [289; 472; 427]; piece 4 [319; 466; 452]; piece 4 [445; 475; 264]; piece 4 [468; 483; 373];
   piece 4 [270; 483; 468]; piece 4 [396; 478; 453]; piece 4 [447; 478; 258]; piece 4 [266; 458; 391]]%Z
  [piece 1 [0; 4]; piece 1 [4; 5]; piece 1 [5; 6]; piece 1 [6; 7]; piece 1 [7; 8]; piece 1 [8; 9];
   piece 1 [9; 10]; piece 1 [10; 11]; piece 1 [11; 12]; piece 1 [12; 13]; piece 1 [13; 14]; piece 1 [14; 15];
   piece 1 [15; 16]; piece 1 [16; 17]; piece 1 [17; 18]; piece 1 [18; 19]; piece 1 [19; 20]; piece 1 [20; 21];
   piece 1 [21; 22]; piece 1 [22; 23]; piece 1 [23; 24]; piece 1 [24; 25]; piece 1 [25; 26]; piece 1 [26; 27];
   piece 1 [27; 28]; piece 1 [28; 29]; piece 1 [29; 30]; piece 1 [30; 31]; piece 1 [31; 32]; piece 1 [32; 33];
   piece 1 [33; 34]; piece 1 [34; 35]; piece 1 [35; 36]; piece 1 [36; 37]; piece 1 [37; 38]; piece 1 [38; 39];
   piece 1 [39; 40]; piece 1 [40; 41]; piece 1 [41; 42]; piece 1 [42; 0]; piece 1 [43; 1]; piece 1 [44; 43];
   piece 1 [45; 44]; piece 1 [46; 45]; piece 1 [47; 46]; piece 1 [48; 47]; piece 1 [49; 48]; piece 1 [50; 49];
   piece 1 [51; 50]; piece 1 [52; 51]; piece 1 [53; 52]; piece 1 [54; 53]; piece 1 [55; 54]; piece 1 [56; 55];
   piece 1 [57; 56]; piece 1 [58; 57]; piece 1 [59; 58]; piece 1 [60; 59]; piece 1 [61; 60]; piece 1 [62; 61];
   piece 1 [63; 62]; piece 1 [64; 63]; piece 1 [65; 64]; piece 1 [66; 65]; piece 1 [67; 66]; piece 1 [68; 67];
   piece 1 [69; 68]; piece 1 [70; 69]; piece 1 [71; 70]; piece 1 [72; 71]; piece 1 [73; 72]; piece 1 [74; 73];
   piece 1 [75; 74]; piece 1 [76; 75]; piece 1 [77; 76]; piece 1 [78; 77]; piece 1 [79; 78]; piece 1 [80; 79];
   piece 1 [81; 80]; piece 1 [1; 81]; piece 2 [2; 82]; piece 2 [82; 83]; piece 2 [83; 84]; piece 2 [84; 85];
   piece 2 [85; 86]; piece 2 [86; 87]; piece 2 [87; 88]; piece 2 [88; 89]; piece 2 [89; 90]; piece 2 [90; 91];
   piece 2 [91; 92]; piece 2 [92; 93]; piece 2 [93; 94]; piece 2 [94; 95]; piece 2 [95; 96]; piece 2 [96; 97];
   piece 2 [97; 98]; piece 2 [98; 99]; piece 2 [99; 100]; piece 2 [100; 101]; piece 2 [101; 102]; piece 2 [102; 103];
   piece 2 [103; 104]; piece 2 [104; 105]; piece 2 [105; 106]; piece 2 [106; 107]; piece 2 [107; 108]; piece 2 [108; 109];
   piece 2 [109; 110]; piece 2 [110; 111]; piece 2 [111; 112]; piece 2 [112; 113]; piece 2 [113; 114]; piece 2 [114; 115];
   piece 2 [115; 116]; piece 2 [116; 117]; piece 2 [117; 118]; piece 2 [118; 119]; piece 2 [119; 120]; piece 2 [120; 2];
   piece 3 [3; 121]; piece 3 [121; 122]; piece 3 [122; 123]; piece 3 [123; 124]; piece 3 [124; 125]; piece 3 [125; 126];
   piece 3 [126; 127]; piece 3 [127; 128]; piece 3 [128; 129]; piece 3 [129; 130]; piece 3 [130; 131]; piece 3 [131; 132];
   piece 3 [132; 133]; piece 3 [133; 134]; piece 3 [134; 135]; piece 3 [135; 136]; piece 3 [136; 137]; piece 3 [137; 138];
   piece 3 [138; 139]; piece 3 [139; 140]; piece 3 [140; 141]; piece 3 [141; 142]; piece 3 [142; 143]; piece 3 [143; 144];
   piece 3 [144; 145]; piece 3 [145; 146]; piece 3 [146; 147]; piece 3 [147; 148]; piece 3 [148; 149]; piece 3 [149; 150];
   piece 3 [150; 151]; piece 3 [151; 152]; piece 3 [152; 153]; piece 3 [153; 154]; piece 3 [154; 155]; piece 3 [155; 156];
   piece 3 [156; 157]; piece 3 [157; 158]; piece 3 [158; 159]; piece 3 [159; 3]]%Z.
Definition nested_coax_json : json Q := JObj [("analysis"%string, JObj [("exportFolder"%string, JStr "Results/nested_coax/"); ("exportParaViewSolution"%string, JBool true); ("exportVisItSolution"%string, JBool true); ("order"%string, JInt 3)]); ("model"%string, JObj [("gmshFile"%string, JStr "nested_coax.msh"); ("materials"%string, JObj [("Conductor_0"%string, JObj [("tag"%string, JInt 2); ("type"%string, JStr "PEC")]); ("Conductor_1"%string, JObj [("tag"%string, JInt 1); ("type"%string, JStr "PEC")]); ("Conductor_2"%string, JObj [("tag"%string, JInt 3); ("type"%string, JStr "PEC")]); ("Vacuum_0"%string, JObj [("tag"%string, JInt 4); ("type"%string, JStr "Vacuum")])])])].

(** testData/agrawal1981 *)
Definition agrawal1981_border : mesh Q := flat_mesh
  [piece 7 [215; 216; 214]; piece 8 [217; 219; 218]; piece 9 [221; 222; 220]; piece 6 [152; 223; 153]]%Z
  [piece 2 [0; 5]; piece 2 [5; 6]; piece 2 [6; 7]; piece 2 [7; 8]; piece 2 [8; 9]; piece 2 [9; 10];
   piece 2 [10; 11]; piece 2 [11; 12]; piece 2 [12; 13]; piece 2 [13; 14]; piece 2 [14; 15]; piece 2 [15; 16];
   piece 2 [16; 17]; piece 2 [17; 18]; piece 2 [18; 19]; piece 2 [19; 20]; piece 2 [20; 21]; piece 2 [21; 22];
   piece 2 [22; 23]; piece 2 [23; 24]; piece 2 [24; 25]; piece 2 [25; 26]; piece 2 [26; 27]; piece 2 [27; 28];
   piece 2 [28; 29]; piece 2 [29; 30]; piece 2 [30; 31]; piece 2 [31; 32]; piece 2 [32; 33]; piece 2 [33; 34];
   piece 2 [34; 35]; piece 2 [35; 36]; piece 2 [36; 37]; piece 2 [37; 38]; piece 2 [38; 39]; piece 2 [39; 40];
   piece 2 [40; 41]; piece 2 [41; 42]; piece 2 [42; 43]; piece 2 [43; 44]; piece 2 [44; 45]; piece 2 [45; 46];
   piece 2 [46; 47]; piece 2 [47; 48]; piece 2 [48; 49]; piece 2 [49; 50]; piece 2 [50; 51]; piece 2 [51; 52];
   piece 2 [52; 53]; piece 2 [53; 0]; piece 3 [1; 54]; piece 3 [54; 55]; piece 3 [55; 56]; piece 3 [56; 57];
   piece 3 [57; 58]; piece 3 [58; 59]; piece 3 [59; 60]; piece 3 [60; 61]; piece 3 [61; 62]; piece 3 [62; 63];
   piece 3 [63; 64]; piece 3 [64; 65]; piece 3 [65; 66]; piece 3 [66; 67]; piece 3 [67; 68]; piece 3 [68; 69];
   piece 3 [69; 70]; piece 3 [70; 71]; piece 3 [71; 72]; piece 3 [72; 73]; piece 3 [73; 74]; piece 3 [74; 75];
   piece 3 [75; 76]; piece 3 [76; 77]; piece 3 [77; 78]; piece 3 [78; 79]; piece 3 [79; 80]; piece 3 [80; 81];
   piece 3 [81; 82]; piece 3 [82; 83]; piece 3 [83; 84]; piece 3 [84; 85]; piece 3 [85; 86]; piece 3 [86; 87];
   piece 3 [87; 88]; piece 3 [88; 89]; piece 3 [89; 90]; piece 3 [90; 91]; piece 3 [91; 92]; piece 3 [92; 93];
   piece 3 [93; 94]; piece 3 [94; 95]; piece 3 [95; 96]; piece 3 [96; 97]; piece 3 [97; 98]; piece 3 [98; 99];
   piece 3 [99; 100]; piece 3 [100; 101]; piece 3 [101; 102]; piece 3 [102; 1]; piece 4 [2; 103]; piece 4 [103; 104];
   piece 4 [104; 105]; piece 4 [105; 106]; piece 4 [106; 107]; piece 4 [107; 108]; piece 4 [108; 109]; piece 4 [109; 110];
   piece 4 [110; 111]; piece 4 [111; 112]; piece 4 [112; 113]; piece 4 [113; 114]; piece 4 [114; 115]; piece 4 [115; 116];
   piece 4 [116; 117]; piece 4 [117; 118]; piece 4 [118; 119]; piece 4 [119; 120]; piece 4 [120; 121]; piece 4 [121; 122];
   piece 4 [122; 123]; piece 4 [123; 124]; piece 4 [124; 125]; piece 4 [125; 126]; piece 4 [126; 127]; piece 4 [127; 128];
   piece 4 [128; 129]; piece 4 [129; 130]; piece 4 [130; 131]; piece 4 [131; 132]; piece 4 [132; 133]; piece 4 [133; 134];
   piece 4 [134; 135]; piece 4 [135; 136]; piece 4 [136; 137]; piece 4 [137; 138]; piece 4 [138; 139]; piece 4 [139; 140];
   piece 4 [140; 141]; piece 4 [141; 142]; piece 4 [142; 143]; piece 4 [143; 144]; piece 4 [144; 145]; piece 4 [145; 146];
   piece 4 [146; 147]; piece 4 [147; 148]; piece 4 [148; 149]; piece 4 [149; 150]; piece 4 [150; 151]; piece 4 [151; 2];
   piece 1 [4; 154]; piece 1 [154; 155]; piece 1 [155; 156]; piece 1 [156; 157]; piece 1 [157; 158]; piece 1 [158; 159];
   piece 1 [159; 160]; piece 1 [160; 161]; piece 1 [161; 162]; piece 1 [162; 163]; piece 1 [163; 164]; piece 1 [164; 165];
   piece 1 [165; 166]; piece 1 [166; 167]; piece 1 [167; 168]; piece 1 [168; 169]; piece 1 [169; 170]; piece 1 [170; 171];
   piece 1 [171; 172]; piece 1 [172; 173]; piece 1 [173; 174]; piece 1 [174; 175]; piece 1 [175; 176]; piece 1 [176; 3];
   piece 5 [3; 177]; piece 5 [177; 178]; piece 5 [178; 179]; piece 5 [179; 180]; piece 5 [180; 181]; piece 5 [181; 182];
   piece 5 [182; 183]; piece 5 [183; 184]; piece 5 [184; 185]; piece 5 [185; 186]; piece 5 [186; 187]; piece 5 [187; 188];
   piece 5 [188; 189]; piece 5 [189; 190]; piece 5 [190; 191]; piece 5 [191; 192]; piece 5 [192; 193]; piece 5 [193; 194];
   piece 5 [194; 195]; piece 5 [195; 196]; piece 5 [196; 197]; piece 5 [197; 198]; piece 5 [198; 199]; piece 5 [199; 200];
   piece 5 [200; 201]; piece 5 [201; 202]; piece 5 [202; 203]; piece 5 [203; 204]; piece 5 [204; 205]; piece 5 [205; 206];
   piece 5 [206; 207]; piece 5 [207; 208]; piece 5 [208; 209]; piece 5 [209; 210]; piece 5 [210; 211]; piece 5 [211; 212];
   piece 5 [212; 213]; piece 5 [213; 4]]%Z.
Definition agrawal1981_json : json Q := JObj [("analysis"%string, JObj [("exportFolder"%string, JStr "Results/agrawal1981/"); ("exportParaViewSolution"%string, JBool true); ("order"%string, JInt 3)]); ("model"%string, JObj [("gmshFile"%string, JStr "agrawal1981.msh"); ("materials"%string, JObj [("Conductor_0"%string, JObj [("tag"%string, JInt 1); ("type"%string, JStr "PEC")]); ("Conductor_1"%string, JObj [("tag"%string, JInt 4); ("type"%string, JStr "PEC")]); ("Conductor_2"%string, JObj [("tag"%string, JInt 3); ("type"%string, JStr "PEC")]); ("Conductor_3"%string, JObj [("tag"%string, JInt 2); ("type"%string, JStr "PEC")]); ("Dielectric_1"%string, JObj [("eps_r"%string, JFloat (113 # 50)%Q); ("tag"%string, JInt 9); ("type"%string, JStr "Dielectric")]); ("Dielectric_2"%string, JObj [("eps_r"%string, JFloat (113 # 50)%Q); ("tag"%string, JInt 8); ("type"%string, JStr "Dielectric")]); ("Dielectric_3"%string, JObj [("eps_r"%string, JFloat (113 # 50)%Q); ("tag"%string, JInt 7); ("type"%string, JStr "Dielectric")]); ("OpenBoundary_0"%string, JObj [("tag"%string, JInt 5); ("type"%string, JStr "OpenBoundary")]); ("Vacuum_0"%string, JObj [("tag"%string, JInt 6); ("type"%string, JStr "Vacuum")])])])].

(** testData/three_wires_ribbon *)
Definition three_wires_ribbon_border : mesh Q := flat_mesh
  [piece 7 [200; 202; 201]; piece 8 [204; 205; 203]; piece 6 [206; 208; 207]; piece 5 [209; 211; 210]]%Z
  [piece 2 [0; 4]; piece 2 [4; 5]; piece 2 [5; 6]; piece 2 [6; 7]; piece 2 [7; 8]; piece 2 [8; 9];
   piece 2 [9; 10]; piece 2 [10; 11]; piece 2 [11; 12]; piece 2 [12; 13]; piece 2 [13; 14]; piece 2 [14; 15];
   piece 2 [15; 16]; piece 2 [16; 17]; piece 2 [17; 18]; piece 2 [18; 19]; piece 2 [19; 20]; piece 2 [20; 21];
   piece 2 [21; 22]; piece 2 [22; 23]; piece 2 [23; 24]; piece 2 [24; 25]; piece 2 [25; 26]; piece 2 [26; 27];
   piece 2 [27; 28]; piece 2 [28; 29]; piece 2 [29; 30]; piece 2 [30; 31]; piece 2 [31; 32]; piece 2 [32; 33];
   piece 2 [33; 34]; piece 2 [34; 35]; piece 2 [35; 36]; piece 2 [36; 37]; piece 2 [37; 38]; piece 2 [38; 39];
   piece 2 [39; 40]; piece 2 [40; 41]; piece 2 [41; 42]; piece 2 [42; 43]; piece 2 [43; 44]; piece 2 [44; 45];
   piece 2 [45; 46]; piece 2 [46; 47]; piece 2 [47; 48]; piece 2 [48; 49]; piece 2 [49; 50]; piece 2 [50; 51];
   piece 2 [51; 52]; piece 2 [52; 0]; piece 3 [1; 53]; piece 3 [53; 54]; piece 3 [54; 55]; piece 3 [55; 56];
   piece 3 [56; 57]; piece 3 [57; 58]; piece 3 [58; 59]; piece 3 [59; 60]; piece 3 [60; 61]; piece 3 [61; 62];
   piece 3 [62; 63]; piece 3 [63; 64]; piece 3 [64; 65]; piece 3 [65; 66]; piece 3 [66; 67]; piece 3 [67; 68];
   piece 3 [68; 69]; piece 3 [69; 70]; piece 3 [70; 71]; piece 3 [71; 72]; piece 3 [72; 73]; piece 3 [73; 74];
   piece 3 [74; 75]; piece 3 [75; 76]; piece 3 [76; 77]; piece 3 [77; 78]; piece 3 [78; 79]; piece 3 [79; 80];
   piece 3 [80; 81]; piece 3 [81; 82]; piece 3 [82; 83]; piece 3 [83; 84]; piece 3 [84; 85]; piece 3 [85; 86];
   piece 3 [86; 87]; piece 3 [87; 88]; piece 3 [88; 89]; piece 3 [89; 90]; piece 3 [90; 91]; piece 3 [91; 92];
   piece 3 [92; 93]; piece 3 [93; 94]; piece 3 [94; 95]; piece 3 [95; 96]; piece 3 [96; 97]; piece 3 [97; 98];
   piece 3 [98; 99]; piece 3 [99; 100]; piece 3 [100; 101]; piece 3 [101; 1]; piece 4 [2; 102]; piece 4 [102; 103];
   piece 4 [103; 104]; piece 4 [104; 105]; piece 4 [105; 106]; piece 4 [106; 107]; piece 4 [107; 108]; piece 4 [108; 109];
   piece 4 [109; 110]; piece 4 [110; 111]; piece 4 [111; 112]; piece 4 [112; 113]; piece 4 [113; 114]; piece 4 [114; 115];
   piece 4 [115; 116]; piece 4 [116; 117]; piece 4 [117; 118]; piece 4 [118; 119]; piece 4 [119; 120]; piece 4 [120; 121];
   piece 4 [121; 122]; piece 4 [122; 123]; piece 4 [123; 124]; piece 4 [124; 125]; piece 4 [125; 126]; piece 4 [126; 127];
   piece 4 [127; 128]; piece 4 [128; 129]; piece 4 [129; 130]; piece 4 [130; 131]; piece 4 [131; 132]; piece 4 [132; 133];
   piece 4 [133; 134]; piece 4 [134; 135]; piece 4 [135; 136]; piece 4 [136; 137]; piece 4 [137; 138]; piece 4 [138; 139];
   piece 4 [139; 140]; piece 4 [140; 141]; piece 4 [141; 142]; piece 4 [142; 143]; piece 4 [143; 144]; piece 4 [144; 145];
   piece 4 [145; 146]; piece 4 [146; 147]; piece 4 [147; 148]; piece 4 [148; 149]; piece 4 [149; 150]; piece 4 [150; 2];
   piece 1 [3; 151]; piece 1 [151; 152]; piece 1 [152; 153]; piece 1 [153; 154]; piece 1 [154; 155]; piece 1 [155; 156];
   piece 1 [156; 157]; piece 1 [157; 158]; piece 1 [158; 159]; piece 1 [159; 160]; piece 1 [160; 161]; piece 1 [161; 162];
   piece 1 [162; 163]; piece 1 [163; 164]; piece 1 [164; 165]; piece 1 [165; 166]; piece 1 [166; 167]; piece 1 [167; 168];
   piece 1 [168; 169]; piece 1 [169; 170]; piece 1 [170; 171]; piece 1 [171; 172]; piece 1 [172; 173]; piece 1 [173; 174];
   piece 1 [174; 175]; piece 1 [175; 176]; piece 1 [176; 177]; piece 1 [177; 178]; piece 1 [178; 179]; piece 1 [179; 180];
   piece 1 [180; 181]; piece 1 [181; 182]; piece 1 [182; 183]; piece 1 [183; 184]; piece 1 [184; 185]; piece 1 [185; 186];
   piece 1 [186; 187]; piece 1 [187; 188]; piece 1 [188; 189]; piece 1 [189; 190]; piece 1 [190; 191]; piece 1 [191; 192];
   piece 1 [192; 193]; piece 1 [193; 194]; piece 1 [194; 195]; piece 1 [195; 196]; piece 1 [196; 197]; piece 1 [197; 198];
   piece 1 [198; 199]; piece 1 [199; 3]]%Z.
Definition three_wires_ribbon_json : json Q := JObj [("analysis"%string, JObj [("exportFolder"%string, JStr "Results/three_wires_ribbon/"); ("exportParaViewSolution"%string, JBool true); ("order"%string, JInt 3)]); ("model"%string, JObj [("gmshFile"%string, JStr "three_wires_ribbon.msh"); ("materials"%string, JObj [("Conductor_0"%string, JObj [("tag"%string, JInt 1); ("type"%string, JStr "PEC")]); ("Conductor_1"%string, JObj [("tag"%string, JInt 2); ("type"%string, JStr "PEC")]); ("Conductor_2"%string, JObj [("tag"%string, JInt 3); ("type"%string, JStr "PEC")]); ("Dielectric_1"%string, JObj [("eps_r"%string, JFloat (7 # 2)%Q); ("tag"%string, JInt 6); ("type"%string, JStr "Dielectric")]); ("Dielectric_2"%string, JObj [("eps_r"%string, JFloat (7 # 2)%Q); ("tag"%string, JInt 7); ("type"%string, JStr "Dielectric")]); ("Dielectric_3"%string, JObj [("eps_r"%string, JFloat (7 # 2)%Q); ("tag"%string, JInt 8); ("type"%string, JStr "Dielectric")]); ("OpenBoundary_0"%string, JObj [("tag"%string, JInt 4); ("type"%string, JStr "OpenBoundary")]); ("Vacuum_0"%string, JObj [("tag"%string, JInt 5); ("type"%string, JStr "Vacuum")])])])].
