(** Lookup tables copied verbatim (by a script) from
    crates/field/src/arch/portable/pairwise_table_arithmetic.rs. *)
Require Import Coq.NArith.NArith Coq.Lists.List.
Import ListNotations.
Local Open Scope N_scope.

(** MUL_4B_LOOKUP: lines 34-51. *)
Definition MUL_4B_LOOKUP : list N :=
  [0; 0; 0; 0; 0; 0; 0; 0; 16; 50; 84; 118; 152; 186; 220; 254;
   32; 19; 168; 155; 236; 223; 100; 87; 48; 33; 252; 237; 116; 101; 184; 169;
   64; 200; 217; 81; 174; 38; 55; 191; 80; 250; 141; 39; 54; 156; 235; 65;
   96; 219; 113; 202; 66; 249; 83; 232; 112; 233; 37; 188; 218; 67; 143; 22;
   128; 76; 110; 162; 247; 59; 25; 213; 144; 126; 58; 212; 111; 129; 197; 43;
   160; 95; 198; 57; 27; 228; 125; 130; 176; 109; 146; 79; 131; 94; 161; 124;
   192; 132; 183; 243; 89; 29; 46; 106; 208; 182; 227; 133; 193; 167; 242; 148;
   224; 151; 31; 104; 181; 194; 74; 61; 240; 165; 75; 30; 45; 120; 150; 195].

(** EXP_TABLE: lines 63-80. *)
Definition EXP_TABLE : list N :=
  [1; 19; 67; 102; 171; 140; 96; 198; 145; 202; 89; 178; 106; 99; 244; 83;
   23; 15; 250; 186; 238; 135; 214; 224; 110; 47; 104; 66; 117; 232; 234; 203;
   74; 241; 12; 200; 120; 51; 209; 158; 48; 227; 92; 237; 181; 20; 61; 56;
   103; 184; 207; 6; 109; 29; 170; 159; 35; 160; 58; 70; 57; 116; 251; 169;
   173; 225; 125; 108; 14; 233; 249; 136; 44; 90; 128; 168; 190; 162; 27; 199;
   130; 137; 63; 25; 230; 3; 50; 194; 221; 86; 72; 208; 141; 115; 133; 247;
   97; 213; 210; 172; 242; 62; 10; 165; 101; 153; 78; 189; 144; 217; 26; 212;
   193; 239; 148; 149; 134; 197; 163; 8; 132; 228; 34; 179; 121; 32; 146; 248;
   155; 111; 60; 43; 36; 222; 100; 138; 13; 219; 59; 85; 122; 18; 80; 37;
   205; 39; 236; 166; 87; 91; 147; 235; 216; 9; 151; 167; 68; 24; 245; 64;
   84; 105; 81; 54; 142; 65; 71; 42; 55; 157; 2; 33; 129; 187; 253; 196;
   176; 75; 226; 79; 174; 211; 191; 177; 88; 161; 41; 5; 95; 223; 119; 201;
   107; 112; 183; 53; 188; 131; 154; 124; 127; 77; 143; 82; 4; 76; 156; 17;
   98; 231; 16; 113; 164; 118; 218; 40; 22; 28; 185; 220; 69; 11; 182; 38;
   255; 229; 49; 240; 31; 139; 30; 152; 93; 254; 246; 114; 150; 180; 7; 126;
   94; 204; 52; 175; 192; 252; 215; 243; 45; 73; 195; 206; 21; 46; 123; 0].

(** LOG_TABLE: lines 82-99. *)
Definition LOG_TABLE : list N :=
  [0; 0; 170; 85; 204; 187; 51; 238; 119; 153; 102; 221; 34; 136; 68; 17;
   210; 207; 141; 1; 45; 252; 216; 16; 157; 83; 110; 78; 217; 53; 230; 228;
   125; 171; 122; 56; 132; 143; 223; 145; 215; 186; 167; 131; 72; 248; 253; 25;
   40; 226; 86; 37; 242; 195; 163; 168; 47; 60; 58; 138; 130; 46; 101; 82;
   159; 165; 27; 2; 156; 220; 59; 166; 90; 249; 32; 177; 205; 201; 106; 179;
   142; 162; 203; 15; 160; 139; 89; 148; 184; 10; 73; 149; 42; 232; 240; 188;
   6; 96; 208; 13; 134; 104; 3; 48; 26; 161; 12; 192; 67; 52; 24; 129;
   193; 211; 235; 93; 61; 28; 213; 190; 36; 124; 140; 254; 199; 66; 239; 200;
   74; 172; 80; 197; 120; 94; 116; 21; 71; 81; 135; 229; 5; 92; 164; 202;
   108; 8; 126; 150; 114; 115; 236; 154; 231; 105; 198; 128; 206; 169; 39; 55;
   57; 185; 77; 118; 212; 103; 147; 155; 75; 63; 54; 4; 99; 64; 180; 243;
   176; 183; 11; 123; 237; 44; 222; 194; 49; 218; 19; 173; 196; 107; 76; 182;
   244; 112; 87; 250; 175; 117; 7; 79; 35; 191; 9; 31; 241; 144; 251; 50;
   91; 38; 98; 181; 111; 97; 22; 246; 152; 109; 214; 137; 219; 88; 133; 189;
   23; 65; 178; 41; 121; 225; 84; 209; 29; 69; 30; 151; 146; 43; 20; 113;
   227; 33; 100; 247; 14; 158; 234; 95; 127; 70; 18; 62; 245; 174; 233; 224].

(** AES_EXP_TABLE: lines 115-132. *)
Definition AES_EXP_TABLE : list N :=
  [1; 3; 5; 15; 17; 51; 85; 255; 26; 46; 114; 150; 161; 248; 19; 53;
   95; 225; 56; 72; 216; 115; 149; 164; 247; 2; 6; 10; 30; 34; 102; 170;
   229; 52; 92; 228; 55; 89; 235; 38; 106; 190; 217; 112; 144; 171; 230; 49;
   83; 245; 4; 12; 20; 60; 68; 204; 79; 209; 104; 184; 211; 110; 178; 205;
   76; 212; 103; 169; 224; 59; 77; 215; 98; 166; 241; 8; 24; 40; 120; 136;
   131; 158; 185; 208; 107; 189; 220; 127; 129; 152; 179; 206; 73; 219; 118; 154;
   181; 196; 87; 249; 16; 48; 80; 240; 11; 29; 39; 105; 187; 214; 97; 163;
   254; 25; 43; 125; 135; 146; 173; 236; 47; 113; 147; 174; 233; 32; 96; 160;
   251; 22; 58; 78; 210; 109; 183; 194; 93; 231; 50; 86; 250; 21; 63; 65;
   195; 94; 226; 61; 71; 201; 64; 192; 91; 237; 44; 116; 156; 191; 218; 117;
   159; 186; 213; 100; 172; 239; 42; 126; 130; 157; 188; 223; 122; 142; 137; 128;
   155; 182; 193; 88; 232; 35; 101; 175; 234; 37; 111; 177; 200; 67; 197; 84;
   252; 31; 33; 99; 165; 244; 7; 9; 27; 45; 119; 153; 176; 203; 70; 202;
   69; 207; 74; 222; 121; 139; 134; 145; 168; 227; 62; 66; 198; 81; 243; 14;
   18; 54; 90; 238; 41; 123; 141; 140; 143; 138; 133; 148; 167; 242; 13; 23;
   57; 75; 221; 124; 132; 151; 162; 253; 28; 36; 108; 180; 199; 82; 246; 0].

(** AES_LOG_TABLE: lines 135-152. *)
Definition AES_LOG_TABLE : list N :=
  [0; 0; 25; 1; 50; 2; 26; 198; 75; 199; 27; 104; 51; 238; 223; 3;
   100; 4; 224; 14; 52; 141; 129; 239; 76; 113; 8; 200; 248; 105; 28; 193;
   125; 194; 29; 181; 249; 185; 39; 106; 77; 228; 166; 114; 154; 201; 9; 120;
   101; 47; 138; 5; 33; 15; 225; 36; 18; 240; 130; 69; 53; 147; 218; 142;
   150; 143; 219; 189; 54; 208; 206; 148; 19; 92; 210; 241; 64; 70; 131; 56;
   102; 221; 253; 48; 191; 6; 139; 98; 179; 37; 226; 152; 34; 136; 145; 16;
   126; 110; 72; 195; 163; 182; 30; 66; 58; 107; 40; 84; 250; 133; 61; 186;
   43; 121; 10; 21; 155; 159; 94; 202; 78; 212; 172; 229; 243; 115; 167; 87;
   175; 88; 168; 80; 244; 234; 214; 116; 79; 174; 233; 213; 231; 230; 173; 232;
   44; 215; 117; 122; 235; 22; 11; 245; 89; 203; 95; 176; 156; 169; 81; 160;
   127; 12; 246; 111; 23; 196; 73; 236; 216; 67; 31; 45; 164; 118; 123; 183;
   204; 187; 62; 90; 251; 96; 177; 134; 59; 82; 161; 108; 170; 85; 41; 157;
   151; 178; 135; 144; 97; 190; 220; 252; 188; 149; 207; 205; 55; 63; 91; 209;
   83; 57; 132; 60; 65; 162; 109; 71; 20; 42; 158; 93; 86; 242; 211; 171;
   68; 17; 146; 217; 35; 32; 46; 137; 180; 124; 184; 38; 119; 153; 227; 165;
   103; 74; 237; 222; 197; 49; 254; 24; 13; 99; 140; 128; 192; 247; 112; 7].

(** BINARY_TOWER_8B_SQUARE_MAP: lines 222-239. *)
Definition BINARY_TOWER_8B_SQUARE_MAP : list N :=
  [0; 1; 3; 2; 9; 8; 10; 11; 7; 6; 4; 5; 14; 15; 13; 12;
   65; 64; 66; 67; 72; 73; 75; 74; 70; 71; 69; 68; 79; 78; 76; 77;
   195; 194; 192; 193; 202; 203; 201; 200; 196; 197; 199; 198; 205; 204; 206; 207;
   130; 131; 129; 128; 139; 138; 136; 137; 133; 132; 134; 135; 140; 141; 143; 142;
   169; 168; 170; 171; 160; 161; 163; 162; 174; 175; 173; 172; 167; 166; 164; 165;
   232; 233; 235; 234; 225; 224; 226; 227; 239; 238; 236; 237; 230; 231; 229; 228;
   106; 107; 105; 104; 99; 98; 96; 97; 109; 108; 110; 111; 100; 101; 103; 102;
   43; 42; 40; 41; 34; 35; 33; 32; 44; 45; 47; 46; 37; 36; 38; 39;
   87; 86; 84; 85; 94; 95; 93; 92; 80; 81; 83; 82; 89; 88; 90; 91;
   22; 23; 21; 20; 31; 30; 28; 29; 17; 16; 18; 19; 24; 25; 27; 26;
   148; 149; 151; 150; 157; 156; 158; 159; 147; 146; 144; 145; 154; 155; 153; 152;
   213; 212; 214; 215; 220; 221; 223; 222; 210; 211; 209; 208; 219; 218; 216; 217;
   254; 255; 253; 252; 247; 246; 244; 245; 249; 248; 250; 251; 240; 241; 243; 242;
   191; 190; 188; 189; 182; 183; 181; 180; 184; 185; 187; 186; 177; 176; 178; 179;
   61; 60; 62; 63; 52; 53; 55; 54; 58; 59; 57; 56; 51; 50; 48; 49;
   124; 125; 127; 126; 117; 116; 118; 119; 123; 122; 120; 121; 114; 115; 113; 112].

(** AES_TOWER_8B_SQUARE_MAP: lines 244-261. *)
Definition AES_TOWER_8B_SQUARE_MAP : list N :=
  [0; 1; 4; 5; 16; 17; 20; 21; 64; 65; 68; 69; 80; 81; 84; 85;
   27; 26; 31; 30; 11; 10; 15; 14; 91; 90; 95; 94; 75; 74; 79; 78;
   108; 109; 104; 105; 124; 125; 120; 121; 44; 45; 40; 41; 60; 61; 56; 57;
   119; 118; 115; 114; 103; 102; 99; 98; 55; 54; 51; 50; 39; 38; 35; 34;
   171; 170; 175; 174; 187; 186; 191; 190; 235; 234; 239; 238; 251; 250; 255; 254;
   176; 177; 180; 181; 160; 161; 164; 165; 240; 241; 244; 245; 224; 225; 228; 229;
   199; 198; 195; 194; 215; 214; 211; 210; 135; 134; 131; 130; 151; 150; 147; 146;
   220; 221; 216; 217; 204; 205; 200; 201; 156; 157; 152; 153; 140; 141; 136; 137;
   154; 155; 158; 159; 138; 139; 142; 143; 218; 219; 222; 223; 202; 203; 206; 207;
   129; 128; 133; 132; 145; 144; 149; 148; 193; 192; 197; 196; 209; 208; 213; 212;
   246; 247; 242; 243; 230; 231; 226; 227; 182; 183; 178; 179; 166; 167; 162; 163;
   237; 236; 233; 232; 253; 252; 249; 248; 173; 172; 169; 168; 189; 188; 185; 184;
   49; 48; 53; 52; 33; 32; 37; 36; 113; 112; 117; 116; 97; 96; 101; 100;
   42; 43; 46; 47; 58; 59; 62; 63; 106; 107; 110; 111; 122; 123; 126; 127;
   93; 92; 89; 88; 77; 76; 73; 72; 29; 28; 25; 24; 13; 12; 9; 8;
   70; 71; 66; 67; 86; 87; 82; 83; 6; 7; 2; 3; 22; 23; 18; 19].

(** BINARY_TOWER_8B_MUL_ALPHA_MAP: lines 266-283. *)
Definition BINARY_TOWER_8B_MUL_ALPHA_MAP : list N :=
  [0; 16; 32; 48; 64; 80; 96; 112; 128; 144; 160; 176; 192; 208; 224; 240;
   65; 81; 97; 113; 1; 17; 33; 49; 193; 209; 225; 241; 129; 145; 161; 177;
   130; 146; 162; 178; 194; 210; 226; 242; 2; 18; 34; 50; 66; 82; 98; 114;
   195; 211; 227; 243; 131; 147; 163; 179; 67; 83; 99; 115; 3; 19; 35; 51;
   148; 132; 180; 164; 212; 196; 244; 228; 20; 4; 52; 36; 84; 68; 116; 100;
   213; 197; 245; 229; 149; 133; 181; 165; 85; 69; 117; 101; 21; 5; 53; 37;
   22; 6; 54; 38; 86; 70; 118; 102; 150; 134; 182; 166; 214; 198; 246; 230;
   87; 71; 119; 103; 23; 7; 55; 39; 215; 199; 247; 231; 151; 135; 183; 167;
   232; 248; 200; 216; 168; 184; 136; 152; 104; 120; 72; 88; 40; 56; 8; 24;
   169; 185; 137; 153; 233; 249; 201; 217; 41; 57; 9; 25; 105; 121; 73; 89;
   106; 122; 74; 90; 42; 58; 10; 26; 234; 250; 202; 218; 170; 186; 138; 154;
   43; 59; 11; 27; 107; 123; 75; 91; 171; 187; 139; 155; 235; 251; 203; 219;
   124; 108; 92; 76; 60; 44; 28; 12; 252; 236; 220; 204; 188; 172; 156; 140;
   61; 45; 29; 13; 125; 109; 93; 77; 189; 173; 157; 141; 253; 237; 221; 205;
   254; 238; 222; 206; 190; 174; 158; 142; 126; 110; 94; 78; 62; 46; 30; 14;
   191; 175; 159; 143; 255; 239; 223; 207; 63; 47; 31; 15; 127; 111; 95; 79].

(** AES_TOWER_8B_MUL_ALPHA_MAP: lines 288-305. *)
Definition AES_TOWER_8B_MUL_ALPHA_MAP : list N :=
  [0; 211; 189; 110; 97; 178; 220; 15; 194; 17; 127; 172; 163; 112; 30; 205;
   159; 76; 34; 241; 254; 45; 67; 144; 93; 142; 224; 51; 60; 239; 129; 82;
   37; 246; 152; 75; 68; 151; 249; 42; 231; 52; 90; 137; 134; 85; 59; 232;
   186; 105; 7; 212; 219; 8; 102; 181; 120; 171; 197; 22; 25; 202; 164; 119;
   74; 153; 247; 36; 43; 248; 150; 69; 136; 91; 53; 230; 233; 58; 84; 135;
   213; 6; 104; 187; 180; 103; 9; 218; 23; 196; 170; 121; 118; 165; 203; 24;
   111; 188; 210; 1; 14; 221; 179; 96; 173; 126; 16; 195; 204; 31; 113; 162;
   240; 35; 77; 158; 145; 66; 44; 255; 50; 225; 143; 92; 83; 128; 238; 61;
   148; 71; 41; 250; 245; 38; 72; 155; 86; 133; 235; 56; 55; 228; 138; 89;
   11; 216; 182; 101; 106; 185; 215; 4; 201; 26; 116; 167; 168; 123; 21; 198;
   177; 98; 12; 223; 208; 3; 109; 190; 115; 160; 206; 29; 18; 193; 175; 124;
   46; 253; 147; 64; 79; 156; 242; 33; 236; 63; 81; 130; 141; 94; 48; 227;
   222; 13; 99; 176; 191; 108; 2; 209; 28; 207; 161; 114; 125; 174; 192; 19;
   65; 146; 252; 47; 32; 243; 157; 78; 131; 80; 62; 237; 226; 49; 95; 140;
   251; 40; 70; 149; 154; 73; 39; 244; 57; 234; 132; 87; 88; 139; 229; 54;
   100; 183; 217; 10; 5; 214; 184; 107; 166; 117; 27; 200; 199; 20; 122; 169].

(** BINARY_TOWER_8B_INVERT_MAP: lines 310-327. *)
Definition BINARY_TOWER_8B_INVERT_MAP : list N :=
  [0; 1; 3; 2; 6; 14; 4; 15; 13; 10; 9; 12; 11; 8; 5; 7;
   20; 103; 148; 123; 16; 102; 158; 126; 210; 129; 39; 75; 209; 143; 47; 66;
   60; 230; 222; 124; 179; 193; 74; 26; 48; 233; 221; 121; 177; 198; 67; 30;
   40; 232; 157; 185; 99; 57; 141; 194; 98; 53; 131; 197; 32; 231; 151; 187;
   97; 72; 31; 46; 172; 200; 188; 86; 65; 96; 38; 27; 207; 170; 91; 190;
   239; 115; 109; 94; 247; 134; 71; 189; 136; 252; 191; 78; 118; 224; 83; 108;
   73; 64; 56; 52; 228; 235; 21; 17; 139; 133; 175; 169; 95; 82; 152; 146;
   251; 181; 238; 81; 183; 240; 92; 225; 220; 43; 149; 19; 35; 223; 23; 159;
   211; 25; 196; 58; 138; 105; 85; 246; 88; 253; 132; 104; 195; 54; 208; 29;
   166; 243; 111; 153; 18; 122; 186; 62; 110; 147; 160; 248; 184; 50; 22; 127;
   154; 249; 226; 219; 237; 216; 144; 242; 174; 107; 77; 206; 68; 201; 168; 106;
   199; 44; 192; 36; 250; 113; 241; 116; 156; 51; 150; 63; 70; 87; 79; 90;
   178; 37; 55; 140; 130; 59; 45; 176; 69; 173; 215; 255; 244; 212; 171; 76;
   142; 28; 24; 128; 205; 245; 254; 202; 165; 236; 227; 163; 120; 42; 34; 125;
   93; 119; 162; 218; 100; 234; 33; 61; 49; 41; 229; 101; 217; 164; 114; 80;
   117; 182; 167; 145; 204; 213; 135; 84; 155; 161; 180; 112; 89; 137; 214; 203].

(** AES_TOWER_8B_INVERT_MAP: lines 334-351. *)
Definition AES_TOWER_8B_INVERT_MAP : list N :=
  [0; 1; 141; 246; 203; 82; 123; 209; 232; 79; 41; 192; 176; 225; 229; 199;
   116; 180; 170; 75; 153; 43; 96; 95; 88; 63; 253; 204; 255; 64; 238; 178;
   58; 110; 90; 241; 85; 77; 168; 201; 193; 10; 152; 21; 48; 68; 162; 194;
   44; 69; 146; 108; 243; 57; 102; 66; 242; 53; 32; 111; 119; 187; 89; 25;
   29; 254; 55; 103; 45; 49; 245; 105; 167; 100; 171; 19; 84; 37; 233; 9;
   237; 92; 5; 202; 76; 36; 135; 191; 24; 62; 34; 240; 81; 236; 97; 23;
   22; 94; 175; 211; 73; 166; 54; 67; 244; 71; 145; 223; 51; 147; 33; 59;
   121; 183; 151; 133; 16; 181; 186; 60; 182; 112; 208; 6; 161; 250; 129; 130;
   131; 126; 127; 128; 150; 115; 190; 86; 155; 158; 149; 217; 247; 2; 185; 164;
   222; 106; 50; 109; 216; 138; 132; 114; 42; 20; 159; 136; 249; 220; 137; 154;
   251; 124; 46; 195; 143; 184; 101; 72; 38; 200; 18; 74; 206; 231; 210; 98;
   12; 224; 31; 239; 17; 117; 120; 113; 165; 142; 118; 61; 189; 188; 134; 87;
   11; 40; 47; 163; 218; 212; 228; 15; 169; 39; 83; 4; 27; 252; 172; 230;
   122; 7; 174; 99; 197; 219; 226; 234; 148; 139; 196; 213; 157; 248; 144; 107;
   177; 13; 214; 235; 198; 14; 207; 173; 8; 78; 215; 227; 93; 80; 30; 179;
   91; 35; 56; 52; 104; 70; 3; 140; 221; 156; 125; 160; 205; 26; 65; 28].
