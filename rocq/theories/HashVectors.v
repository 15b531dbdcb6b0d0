(** * The test vectors of the project

    The tables of check.c, copied, and the results of the modelled functions
    on them. *)
From Verif Require Import Bits Hash HashProof.
Global Open Scope Z_scope.

(** A memory holding exactly the given bytes. *)
Definition bytes_mem (key : Z) (bs : list Z) : mem :=
  list_to_map (imap (fun i b => (key + Z.of_nat i, B b)) bs).
Definition ok_value (r : res Z) : option Z := match r with Ok v _ => Some v | _ => None end.

(** check.c:325-350 *)
Definition check_hash32 : list (list Z * Z) :=
  [([], 0x8614384c);
   ([97], 0x12c16c36);
   ([97; 98; 99], 0xc58e8af5);
   ([109; 101; 115; 115; 97; 103; 101; 32; 100; 105; 103; 101; 115; 116], 0x006b32f1);
   ([97; 98; 99; 100; 101; 102; 103; 104; 105; 106; 107; 108; 109; 110; 111; 112; 113; 114; 115; 116; 117; 118; 119; 120; 121; 122], 0x7e6fcfe0);
   ([65; 66; 67; 68; 69; 70; 71; 72; 73; 74; 75; 76; 77; 78; 79; 80; 81; 82; 83; 84; 85; 86; 87; 88; 89; 90; 97; 98; 99; 100; 101; 102; 103; 104; 105; 106; 107; 108; 109; 110; 111; 112; 113; 114; 115; 116; 117; 118; 119; 120; 121; 122; 48; 49; 50; 51; 52; 53; 54; 55; 56; 57], 0x8604adf8);
   ([84; 104; 101; 32; 113; 117; 105; 99; 107; 32; 98; 114; 111; 119; 110; 32; 102; 111; 120; 32; 106; 117; 109; 112; 115; 32; 111; 118; 101; 114; 32; 116; 104; 101; 32; 108; 97; 122; 121; 32; 100; 111; 103], 0xdeba3d3a);
   ([0], 0x4a7d1c33);
   ([22; 39], 0x8b50899b);
   ([226; 86; 180], 0x60406493);
   ([201; 77; 156; 218], 0xa049144a);
   ([121; 241; 41; 105; 93], 0x4da2c2f1);
   ([0; 126; 223; 30; 49; 28], 0x59de30cf);
   ([42; 76; 225; 255; 158; 111; 83], 0x219e149c);
   ([186; 2; 171; 24; 48; 197; 14; 138], 0x25067520);
   ([236; 78; 122; 114; 30; 113; 42; 201; 51], 0xa1f368d8);
   ([253; 226; 156; 15; 114; 183; 8; 234; 208; 120], 0x805fc63d);
   ([101; 196; 138; 184; 128; 134; 154; 121; 0; 183; 174], 0x7f75dd0f);
   ([119; 233; 215; 128; 14; 63; 92; 67; 200; 194; 70; 57], 0xb9154382);
   ([135; 216; 97; 97; 76; 137; 23; 78; 161; 164; 239; 19; 169], 0x2bdd05d7);
   ([254; 166; 91; 194; 218; 232; 149; 212; 100; 171; 76; 57; 88; 41], 0xabffeb9f);
   ([148; 73; 192; 120; 160; 128; 218; 199; 113; 78; 23; 55; 169; 124; 64], 0x886da0b4);
   ([83; 126; 54; 180; 46; 201; 185; 204; 24; 62; 154; 95; 252; 183; 176; 97], 0x34ed2af3)].

(** check.c:355-380 *)
Definition check_strhash32 : list (list Z * Z) :=
  [([], 0x0af1416d);
   ([97], 0x68fa0f3f);
   ([97; 98; 99], 0xfc68ffc5);
   ([109; 101; 115; 115; 97; 103; 101; 32; 100; 105; 103; 101; 115; 116], 0x08477b63);
   ([97; 98; 99; 100; 101; 102; 103; 104; 105; 106; 107; 108; 109; 110; 111; 112; 113; 114; 115; 116; 117; 118; 119; 120; 121; 122], 0x5b9c25e5);
   ([65; 66; 67; 68; 69; 70; 71; 72; 73; 74; 75; 76; 77; 78; 79; 80; 81; 82; 83; 84; 85; 86; 87; 88; 89; 90; 97; 98; 99; 100; 101; 102; 103; 104; 105; 106; 107; 108; 109; 110; 111; 112; 113; 114; 115; 116; 117; 118; 119; 120; 121; 122; 48; 49; 50; 51; 52; 53; 54; 55; 56; 57], 0x1e530ce7);
   ([84; 104; 101; 32; 113; 117; 105; 99; 107; 32; 98; 114; 111; 119; 110; 32; 102; 111; 120; 32; 106; 117; 109; 112; 115; 32; 111; 118; 101; 114; 32; 116; 104; 101; 32; 108; 97; 122; 121; 32; 100; 111; 103], 0xaf93eefe);
   ([255], 0xfc88801b);
   ([22; 39], 0xcd7216db);
   ([226; 86; 180], 0x05f98d02);
   ([201; 77; 156; 218], 0xf65206f8);
   ([121; 241; 41; 105; 93], 0x72bd6bda);
   ([255; 126; 223; 30; 49; 28], 0x57dfb9b4);
   ([42; 76; 225; 255; 158; 111; 83], 0x499ff634);
   ([186; 2; 171; 24; 48; 197; 14; 138], 0xe896b7ce);
   ([236; 78; 122; 114; 30; 113; 42; 201; 51], 0xfe3939f0);
   ([253; 226; 156; 15; 114; 183; 8; 234; 208; 120], 0x4351d482);
   ([101; 196; 138; 184; 128; 134; 154; 121; 255; 183; 174], 0x88e92135);
   ([119; 233; 215; 128; 14; 63; 92; 67; 200; 194; 70; 57], 0x01109c16);
   ([135; 216; 97; 97; 76; 137; 23; 78; 161; 164; 239; 19; 169], 0xbcb050dc);
   ([254; 166; 91; 194; 218; 232; 149; 212; 100; 171; 76; 57; 88; 41], 0xbe5e1fd5);
   ([148; 73; 192; 120; 160; 128; 218; 199; 113; 78; 23; 55; 169; 124; 64], 0x70d8c97f);
   ([83; 126; 54; 180; 46; 201; 185; 204; 24; 62; 154; 95; 252; 183; 176; 97], 0x957440a9)].

(** check.c:386-411 *)
Definition check_hash64 : list (list Z * Z) :=
  [([], 0x8614384cb5165fbf);
   ([97], 0x1a2e0298a8e94a3d);
   ([97; 98; 99], 0x7555796b7a7d21eb);
   ([109; 101; 115; 115; 97; 103; 101; 32; 100; 105; 103; 101; 115; 116], 0x9411a57d04b92fb4);
   ([97; 98; 99; 100; 101; 102; 103; 104; 105; 106; 107; 108; 109; 110; 111; 112; 113; 114; 115; 116; 117; 118; 119; 120; 121; 122], 0x3ca3f8d2b4e69832);
   ([65; 66; 67; 68; 69; 70; 71; 72; 73; 74; 75; 76; 77; 78; 79; 80; 81; 82; 83; 84; 85; 86; 87; 88; 89; 90; 97; 98; 99; 100; 101; 102; 103; 104; 105; 106; 107; 108; 109; 110; 111; 112; 113; 114; 115; 116; 117; 118; 119; 120; 121; 122; 48; 49; 50; 51; 52; 53; 54; 55; 56; 57], 0x6dae542ba0015a4d);
   ([84; 104; 101; 32; 113; 117; 105; 99; 107; 32; 98; 114; 111; 119; 110; 32; 102; 111; 120; 32; 106; 117; 109; 112; 115; 32; 111; 118; 101; 114; 32; 116; 104; 101; 32; 108; 97; 122; 121; 32; 100; 111; 103], 0xe06d8cbb3d2ea1a6);
   ([0], 0x201e664fb5f2c021);
   ([22; 39], 0xef42fa8032c4b775);
   ([226; 86; 180], 0x6e6c498a6688466c);
   ([201; 77; 156; 218], 0x5195005419905423);
   ([121; 241; 41; 105; 93], 0x221235b48afee7c1);
   ([0; 126; 223; 30; 49; 28], 0x1b1f18b9266f095b);
   ([42; 76; 225; 255; 158; 111; 83], 0x2cbafa8e741d49ca);
   ([186; 2; 171; 24; 48; 197; 14; 138], 0x4677f04c06e0758d);
   ([236; 78; 122; 114; 30; 113; 42; 201; 51], 0x5afe09e8214e2163);
   ([253; 226; 156; 15; 114; 183; 8; 234; 208; 120], 0x115b6276d209fab6);
   ([101; 196; 138; 184; 128; 134; 154; 121; 0; 183; 174], 0xd0636d2f01cf3a3e);
   ([119; 233; 215; 128; 14; 63; 92; 67; 200; 194; 70; 57], 0x6d259f5fef74f93e);
   ([135; 216; 97; 97; 76; 137; 23; 78; 161; 164; 239; 19; 169], 0x23449c3baf93ac39);
   ([254; 166; 91; 194; 218; 232; 149; 212; 100; 171; 76; 57; 88; 41], 0x9b85ba28d7854d69);
   ([148; 73; 192; 120; 160; 128; 218; 199; 113; 78; 23; 55; 169; 124; 64], 0x3617c833193a359f);
   ([83; 126; 54; 180; 46; 201; 185; 204; 24; 62; 154; 95; 252; 183; 176; 97], 0x5dbf9ff58e274dd9)].

(** check.c:416-483 *)
Definition check_inthash32 : list (Z * Z) :=
  [(0x00000000, 0x00000000);
   (0x00000001, 0xc2b73583);
   (0x00000002, 0xe90f1258);
   (0x00000004, 0x7a10c2d3);
   (0x00000008, 0x200c3457);
   (0x00000010, 0xeb97690a);
   (0x00000020, 0x7fb291d3);
   (0x00000040, 0xf50601d8);
   (0x00000080, 0x727dbaed);
   (0x00000100, 0x7ef5f77d);
   (0x00000200, 0x91a480dc);
   (0x00000400, 0x2bad9acc);
   (0x00000800, 0xfe4d150e);
   (0x00001000, 0xc3add476);
   (0x00002000, 0x23946174);
   (0x00004000, 0x987cfc43);
   (0x00008000, 0x630cdf68);
   (0x00010000, 0x0ac3a767);
   (0x00020000, 0xad086d5b);
   (0x00040000, 0x1126ccdf);
   (0x00080000, 0x4370dbc4);
   (0x00100000, 0xefd6e5e6);
   (0x00200000, 0x9a93c1b5);
   (0x00400000, 0x10114902);
   (0x00800000, 0x96117e60);
   (0x01000000, 0x5dec9f58);
   (0x02000000, 0xfee234c7);
   (0x04000000, 0x36137e26);
   (0x08000000, 0x6c26fc4c);
   (0x10000000, 0xd84df898);
   (0x20000000, 0xb099f131);
   (0x40000000, 0x6131e262);
   (0x80000000, 0xc263c4c4);
   (0x00204a16, 0xd8b97461);
   (0x05542a27, 0x65d0057a);
   (0x169c39e2, 0x7c2ff59a);
   (0x2eab4956, 0xa8ba89bd);
   (0x0bb0b8b4, 0xb790c8de);
   (0x0bd068c9, 0x92d30546);
   (0x3e5d224d, 0xd610bf1d);
   (0x436c8d9c, 0x27b09019);
   (0x3a2adfda, 0xdfde9385);
   (0x1dd8ca79, 0xc7c10d7b);
   (0x6a67c4f1, 0xf92a788d);
   (0x7742fa29, 0x892c3519);
   (0x48b62d69, 0x7f642f55);
   (0x472e195d, 0xea2c49e5);
   (0x0681a900, 0x4de5c929);
   (0x622ebb7e, 0x35a7e306);
   (0x026bccdf, 0xa7e4b630);
   (0x204d531e, 0x43ebd664);
   (0x262b5331, 0x7a9a161f);
   (0x7020241c, 0xbaed3ef7);
   (0x440a0e2a, 0x0b8c5b29);
   (0x75cb1c4c, 0x19555414);
   (0x41f9a5e1, 0xc6acbc6b);
   (0x67bc26ff, 0x54e4411f);
   (0x181e279e, 0x979c834f);
   (0x7172c06f, 0xe6a179ff);
   (0x4909e153, 0x198e5e0f);
   (0x09d3bfba, 0x109a6f17);
   (0x685ae502, 0xf9d57a4b);
   (0x7e10e8ab, 0x09765bec);
   (0x0f262618, 0xe16404cd);
   (0x726b8230, 0x55e478b4)].

(** check.c:488-587 *)
Definition check_inthash64 : list (Z * Z) :=
  [(0x0000000000000000, 0x77cfa1eef01bca90);
   (0x0000000000000001, 0x5bca7c69b794f8ce);
   (0x0000000000000002, 0xb795033f6f2a0674);
   (0x0000000000000004, 0x6f2a25235e544a31);
   (0x0000000000000008, 0xde543f7b3ca87ecb);
   (0x0000000000000010, 0xbca87eec7950fd82);
   (0x0000000000000020, 0x7950fddef2a1fb10);
   (0x0000000000000040, 0xf2a1fbbde543f620);
   (0x0000000000000080, 0xe543f9324a87efad);
   (0x0000000000000100, 0xca87f25e950fdf4e);
   (0x0000000000000200, 0x950fe4bd2a1fbe9c);
   (0x0000000000000400, 0x2a1fc968543f7d14);
   (0x0000000000000800, 0x543f92d0a87efa28);
   (0x0000000000001000, 0xa87f259f50fdf44c);
   (0x0000000000002000, 0x50fe4b3ea1fbe898);
   (0x0000000000004000, 0xa1fc967bc3f7d12d);
   (0x0000000000008000, 0x43f92da207efa3af);
   (0x0000000000010000, 0x87f25b4e8fdf4773);
   (0x0000000000020000, 0x0fe4b6a71fbe8efa);
   (0x0000000000040000, 0x1fc96d4ebf7d1df5);
   (0x0000000000080000, 0x3f92da9dfefa3beb);
   (0x0000000000100000, 0x7f25b53c7df477d7);
   (0x0000000000200000, 0xfe4b6a797be8efaf);
   (0x0000000000400000, 0xfc96d4f377d1df5f);
   (0x0000000000800000, 0xf92da9e76fa3bebf);
   (0x0000000001000000, 0xf25b39f0df4749c2);
   (0x0000000002000000, 0xe4b673e1be8e9384);
   (0x0000000004000000, 0xc96ce7c3fd1d2709);
   (0x0000000008000000, 0x92d9cf87fa3a4e12);
   (0x0000000010000000, 0x25b39f0ff4749c24);
   (0x0000000020000000, 0x4b673e1fe8e93848);
   (0x0000000040000000, 0x96ce7c3a51d27085);
   (0x0000000080000000, 0x2d9cf88523a4e10b);
   (0x0000000100000000, 0x5b39f10ac749c217);
   (0x0000000200000000, 0xb673e2060e93842f);
   (0x0000000400000000, 0x6ce7c40c9d27085f);
   (0x0000000800000000, 0xdc8387ff3f0e10aa);
   (0x0000001000000000, 0xb9070fee7e1c2154);
   (0x0000002000000000, 0x720e1fdcfc3842a8);
   (0x0000004000000000, 0xe41c3fa478708545);
   (0x0000008000000000, 0xc8387f58f0e10a8a);
   (0x0000010000000000, 0x9364fec267021515);
   (0x0000020000000000, 0x26c9fd954e042a2b);
   (0x0000040000000000, 0x4d93fb2a9c085456);
   (0x0000080000000000, 0x9b27f6553810a8ac);
   (0x0000100000000000, 0xae84159b600d1cc8);
   (0x0000200000000000, 0x455932ec903fc254);
   (0x0000400000000000, 0xa2d36aa0d044b36f);
   (0x0000800000000000, 0x7b8ef94d0d2d2844);
   (0x0001000000000000, 0xd802248d5ba62df7);
   (0x0002000000000000, 0x2c298f47af1d015e);
   (0x0004000000000000, 0x93a4e2a055abc2f5);
   (0x0008000000000000, 0x6f9511373b7145b2);
   (0x0010000000000000, 0x6305c0717e1d40d4);
   (0x0020000000000000, 0x6237df27b416b76b);
   (0x0040000000000000, 0x042bc5ffe77f439e);
   (0x0080000000000000, 0x7241900621a8c72b);
   (0x0100000000000000, 0x6a298a4b4ecb2ec6);
   (0x0200000000000000, 0x789742a5659f92fb);
   (0x0400000000000000, 0x794ee951db0365e6);
   (0x0800000000000000, 0x745424e0b94aec3c);
   (0x1000000000000000, 0x726e27d005120de7);
   (0x2000000000000000, 0x6898adb511c8513e);
   (0x4000000000000000, 0x59dbb96b3414d7ec);
   (0x8000000000000000, 0x3be7d0f7780de548);
   (0x0cead30e6469f5c5, 0x0f3b67e6407d0ed9);
   (0x028a2bec206c7b8a, 0xa9be0155bf452972);
   (0x56e5747a306eac4e, 0x308451cac91706c3);
   (0x6058b11e57287c72, 0x6f8b3e2b8bf1abc4);
   (0x4fec8f2a00cc2071, 0x11f1e965f20a45a4);
   (0x4f0bdf33102febc9, 0x6102a774aa4baacf);
   (0x17e067e262adc6fd, 0x5878e9adb48c4d7c);
   (0x41374f0f3f94939c, 0x55d43d2febf8b7df);
   (0x59d163b72870b072, 0x98ee8d1508e8ff20);
   (0x702b00ea2f01f008, 0x1abf9db8b3306341);
   (0x433b78782f7cc0d0, 0xd33358a085d11f6a);
   (0x45789bc436c34865, 0xa573c24e116ccf0d);
   (0x15e7f9b85580528a, 0x6d594ec1bb5651df);
   (0x6e52ea866a56f880, 0x5dac61fbbe7d64ff);
   (0x06baec796275d69a, 0x193424cca0b43145);
   (0x2ac9d0b77bbdcc00, 0x44b2175a2c313151);
   (0x2299ab770a8223ae, 0x404514aa9d8e5c65);
   (0x568e90d709816de9, 0x08907c8b20d9fb59);
   (0x3b6b460e67b34680, 0xfc77f1ea859b024e);
   (0x418fde5c48db0e3f, 0x2e6a2d8cbe2d4412);
   (0x5e8fa3c84b12c543, 0xa9354017412aba12);
   (0x49fad5466f937fc2, 0xe81aeb4429b6264a);
   (0x2ab116877b7b6839, 0xb189fec8b0994d6e);
   (0x16a5916132482fd8, 0xa7c48eb9f12b7d37);
   (0x6d24a54c0e51b961, 0x701631d776a5b0e2);
   (0x7a39bf1767d47a89, 0x6bd08da7d7095b7a);
   (0x11c7f9a173bf8d4e, 0x451390b96dcad08d);
   (0x10411fef57d4fca4, 0x49bd093dc8d7e040);
   (0x001079a900860713, 0x81ab2baf1bf59632);
   (0x4b1b9ca618b2a5fe, 0x152cb5a46ef65f99);
   (0x036db8c22ffea95b, 0x08a263ec4de57fa9);
   (0x64861ee83b7d6dda, 0xd344a694800cea8c)].

(** The calls of check.c:599-632.  A string is followed by three more bytes
    (see C45). *)
Definition check_hash32_results (x86 : bool) : list (option Z) :=
  (fun v => ok_value (hash_u32 x86 10 0xa766795d 4099 (Z.of_nat (length v.1)) (bytes_mem 4099 v.1))) <$> check_hash32.
Definition check_strhash32_results (x86 : bool) : list (option Z) :=
  (fun v => ok_value (strhash_u32 x86 10 0xa766795d 4099 (bytes_mem 4099 (v.1 ++ [0; 1; 2; 3])))) <$> check_strhash32.
Definition check_hash64_results (x86 : bool) : list (option Z) :=
  (fun v => ok_value (hash_u64 x86 10 0x2f022773a766795d 4099 (Z.of_nat (length v.1)) (bytes_mem 4099 v.1))) <$> check_hash64.

Lemma check_hash32_ok x86 : check_hash32_results x86 = (fun v => Some v.2) <$> check_hash32.
Proof. destruct x86; vm_compute; reflexivity. Qed.
Lemma check_strhash32_ok x86 : check_strhash32_results x86 = (fun v => Some v.2) <$> check_strhash32.
Proof. destruct x86; vm_compute; reflexivity. Qed.
Lemma check_hash64_ok x86 : check_hash64_results x86 = (fun v => Some v.2) <$> check_hash64.
Proof. destruct x86; vm_compute; reflexivity. Qed.
Lemma check_inthash32_ok : inthash_u32 <$> check_inthash32.*1 = check_inthash32.*2.
Proof. vm_compute. reflexivity. Qed.
Lemma check_inthash64_ok : inthash_u64 <$> check_inthash64.*1 = check_inthash64.*2.
Proof. vm_compute. reflexivity. Qed.
