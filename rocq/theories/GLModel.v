(** Gauss-Legendre quadrature: the tables of /repo/src/math_glquadrature.h and the routines integrateGL, prepareIntegrationTableGL of
    /repo/src/math_core.cpp.  The tables hold exactly the double-precision numbers nearest to the decimal literals; the arithmetic of the
    routines is over the reals. *)
From Verif Require Export Arr PolyModel SplIntModel.
Local Open Scope Z_scope.

(** math_core.h:546 *)
Definition MAX_GL_ORDER : Z := 40.
(** math_glquadrature.h:14-60: (point, weight) of each rule; the decimal literals multiplied by 10^20 *)
Definition glLiterals (n : Z) : option (list (Z * Z)) :=
  match n with
  | 1 => Some [(50000000000000000000, 100000000000000000000)]
  | 2 => Some [(21132486540518710000, 50000000000000000000); (78867513459481290000, 50000000000000000000)]
  | 3 => Some [(11270166537925830000, 27777777777777780000); (50000000000000000000, 44444444444444440000); (88729833462074170000, 27777777777777780000)]
  | 4 => Some [(6943184420297371000, 17392742256872690000); (33000947820757190000, 32607257743127300000); (66999052179242810000, 32607257743127300000); (93056815579702630000, 17392742256872690000)]
  | 5 => Some [(4691007703066800000, 11846344252809450000); (23076534494715840000, 23931433524968320000); (50000000000000000000, 28444444444444440000); (76923465505284150000, 23931433524968320000); (95308992296933200000, 11846344252809450000)]
  | 6 => Some [(3376524289842399000, 8566224618958518000); (16939530676686770000, 18038078652406930000); (38069040695840160000, 23395696728634550000); (61930959304159850000, 23395696728634550000); (83060469323313220000, 18038078652406930000); (96623475710157600000, 8566224618958518000)]
  | 7 => Some [(2544604382862074000, 6474248308443485000); (12923440720030280000, 13985269574463830000); (29707742431130140000, 19091502525255950000); (50000000000000000000, 20897959183673470000); (70292257568869850000, 19091502525255950000); (87076559279969720000, 13985269574463830000); (97455395617137930000, 6474248308443485000)]
  | 8 => Some [(1985507175123188000, 5061426814518813000); (10166676129318660000, 11119051722668720000); (23723379504183550000, 15685332293894360000); (40828267875217510000, 18134189168918100000); (59171732124782490000, 18134189168918100000); (76276620495816450000, 15685332293894360000); (89833323870681340000, 11119051722668720000); (98014492824876810000, 5061426814518813000)]
  | 9 => Some [(1591988024618695000, 4063719418078721000); (8198444633668210000, 9032408034742870000); (19331428364970480000, 13030534820146770000); (33787328829809550000, 15617353852000140000); (50000000000000000000, 16511967750062990000); (66212671170190450000, 15617353852000140000); (80668571635029520000, 13030534820146770000); (91801555366331790000, 9032408034742870000); (98408011975381300000, 4063719418078721000)]
  | 10 => Some [(1304673574141414000, 3333567215434407000); (6746831665550775000, 7472567457529029000); (16029521585048780000, 10954318125799100000); (28330230293537640000, 13463335965499820000); (42556283050918440000, 14776211235737640000); (57443716949081560000, 14776211235737640000); (71669769706462360000, 13463335965499820000); (83970478414951220000, 10954318125799100000); (93253168334449220000, 7472567457529029000); (98695326425858590000, 3333567215434407000)]
  | 11 => Some [(1088567092697150000, 2783428355808683000); (5646870011595235000, 6279018473245231000); (13492399721297530000, 9314510546386713000); (24045193539659410000, 11659688229599520000); (36522842202382750000, 13140227225512330000); (50000000000000000000, 13646254338895030000); (63477157797617250000, 13140227225512330000); (75954806460340600000, 11659688229599520000); (86507600278702470000, 9314510546386713000); (94353129988404760000, 6279018473245231000); (98911432907302850000, 2783428355808683000)]
  | 12 => Some [(921968287664037500, 2358766819325591000); (4794137181476257000, 5346966299765921000); (11504866290284770000, 8003916427167311000); (20634102285669130000, 10158371336153300000); (31608425050090990000, 11674626826917740000); (43738329574426550000, 12457352290670140000); (56261670425573450000, 12457352290670140000); (68391574949909010000, 11674626826917740000); (79365897714330870000, 10158371336153300000); (88495133709715230000, 8003916427167311000); (95205862818523750000, 5346966299765921000); (99078031712335970000, 2358766819325591000)]
  | 13 => Some [(790847264070592600, 2024200238265794000); (4120080038851102000, 4606074991886423000); (9921095463334505000, 6943675510989362000); (17882533027982990000, 8907299038097287000); (27575362448177660000, 10390802376844430000); (38477084202243260000, 11314159013144860000); (50000000000000000000, 11627577661543690000); (61522915797756740000, 11314159013144860000); (72424637551822350000, 10390802376844430000); (82117466972017010000, 8907299038097287000); (90078904536665490000, 6943675510989362000); (95879919961148900000, 4606074991886423000); (99209152735929410000, 2024200238265794000)]
  | 14 => Some [(685809565159383100, 1755973016587593000); (3578255816821324000, 4007904357988010000); (8639934246511750000, 6075928534395159000); (15635354759415730000, 7860158357909677000); (24237568182092300000, 9276919873896891000); (34044381553605510000, 10259923186064780000); (44597252564632820000, 10763192673157890000); (55402747435367180000, 10763192673157890000); (65955618446394490000, 10259923186064780000); (75762431817907700000, 9276919873896891000); (84364645240584270000, 7860158357909677000); (91360065753488250000, 6075928534395159000); (96421744183178670000, 4007904357988010000); (99314190434840620000, 1755973016587593000)]
  | 15 => Some [(600374098975728600, 1537662099805863000); (3136330379964705000, 3518302374405406000); (7589670829478640000, 5357961023358597000); (13779113431991500000, 6978533896307716000); (21451391369573060000, 8313460290849696000); (30292432646121830000, 9308050000778111000); (39940295300128280000, 9921574266355579000); (50000000000000000000, 10128912096278060000); (60059704699871730000, 9921574266355579000); (69707567353878160000, 9308050000778111000); (78548608630426940000, 8313460290849696000); (86220886568008500000, 6978533896307716000); (92410329170521370000, 5357961023358597000); (96863669620035300000, 3518302374405406000); (99399625901024270000, 1537662099805863000)]
  | 16 => Some [(529953250417503300, 1357622970587705000); (2771248846338371000, 3112676196932395000); (6718439880608412000, 4757925584124639000); (12229779582249850000, 6231448562776694000); (19106187779867810000, 7479799440828837000); (27099161117138630000, 8457825969750127000); (35919822461037050000, 9130170752246179000); (45249374508118130000, 9472530522753425000); (54750625491881880000, 9472530522753425000); (64080177538962950000, 9130170752246179000); (72900838882861370000, 8457825969750127000); (80893812220132190000, 7479799440828837000); (87770220417750160000, 6231448562776694000); (93281560119391580000, 4757925584124639000); (97228751153661630000, 3112676196932395000); (99470046749582500000, 1357622970587705000)]
  | 17 => Some [(471226234279133200, 1207415143427397000); (2466223911561612000, 2772976468699360000); (5988042313650705000, 4251807415858959000); (10924299805159930000, 5594192359670198000); (17116442039165460000, 6756818423426274000); (24365473145676150000, 7702288053840514000); (32438411827306180000, 8400205107822502000); (41075790925207610000, 8828135268349632000); (50000000000000000000, 8972323517810327000); (58924209074792390000, 8828135268349632000); (67561588172693820000, 8400205107822502000); (75634526854323850000, 7702288053840514000); (82883557960834540000, 6756818423426274000); (89075700194840070000, 5594192359670198000); (94011957686349290000, 4251807415858959000); (97533776088438380000, 2772976468699360000); (99528773765720870000, 1207415143427397000)]
  | 18 => Some [(421741578953452700, 1080800676324166000); (2208802521430112000, 2485727444748490000); (5369876675122213000, 3821286512744453000); (9814752051373844000, 5047102205314358000); (15415647846982340000, 6127760335573923000); (22011458446302620000, 7032145733532533000); (29412441926857870000, 7734233756313262000); (37405688715424720000, 8213824187291636000); (45761249347913240000, 8457119148157180000); (54238750652086760000, 8457119148157180000); (62594311284575280000, 8213824187291636000); (70587558073142130000, 7734233756313262000); (77988541553697380000, 7032145733532533000); (84584352153017660000, 6127760335573923000); (90185247948626160000, 5047102205314358000); (94630123324877790000, 3821286512744453000); (97791197478569890000, 2485727444748490000); (99578258421046550000, 1080800676324166000)]
  | 19 => Some [(379657807820779800, 973089411486323900); (1989592393258498000, 2240711338284980000); (4842204819259105000, 3452227136882061000); (8864267173142859000, 4574501081122500000); (13951691133238530000, 5578332277366699000); (19972734766915950000, 6437698126966811000); (26771462931201950000, 7130335108680330000); (34171795001818510000, 7638302103292983000); (41982067717988730000, 7948442169697717000); (50000000000000000000, 8052722492439185000); (58017932282011260000, 7948442169697717000); (65828204998181490000, 7638302103292983000); (73228537068798050000, 7130335108680330000); (80027265233084060000, 6437698126966811000); (86048308866761470000, 5578332277366699000); (91135732826857140000, 4574501081122500000); (95157795180740900000, 3452227136882061000); (98010407606741500000, 2240711338284980000); (99620342192179220000, 973089411486323900)]
  | 20 => Some [(343570040745253800, 880700356957605900); (1801403636104311000, 2030071490019347000); (4388278587433705000, 3133602416705453000); (8044151408889059000, 4163837078835238000); (12683404676992460000, 5096505990862022000); (18197315963674250000, 5909726598075921000); (24456649902458650000, 6584431922458832000); (31314695564229020000, 7104805465919102000); (38610707442917750000, 7458649323630187000); (46173673943325130000, 7637669356536292000); (53826326056674870000, 7637669356536292000); (61389292557082250000, 7458649323630187000); (68685304435770980000, 7104805465919102000); (75543350097541350000, 6584431922458832000); (81802684036325760000, 5909726598075921000); (87316595323007540000, 5096505990862022000); (91955848591110940000, 4163837078835238000); (95611721412566300000, 3133602416705453000); (98198596363895680000, 2030071490019347000); (99656429959254740000, 880700356957605900)]
  | 25 => Some [(222151510475095100, 569689925051314400); (1166803927024124000, 1317749330751607000); (2851271438551283000, 2046957835065316000); (5250400106086232000, 2745234798791760000); (8327868561958300000, 3401916690617846000); (12037036848132120000, 4007035016750051000); (16321681576326580000, 4551413099148183000); (21116853487938850000, 5026797453352532000); (26349863427714250000, 5425981223713183000); (31941384709530610000, 5742912957285582000); (37806655813950580000, 5972788176789239000); (43856765369464480000, 6112122149515502000); (50000000000000000000, 6158802686335772000); (56143234630535520000, 6112122149515502000); (62193344186049430000, 5972788176789239000); (68058615290469390000, 5742912957285582000); (73650136572285750000, 5425981223713183000); (78883146512061150000, 5026797453352532000); (83678318423673410000, 4551413099148183000); (87962963151867880000, 4007035016750051000); (91672131438041700000, 3401916690617846000); (94749599893913770000, 2745234798791760000); (97148728561448720000, 2046957835065316000); (98833196072975870000, 1317749330751607000); (99777848489524900000, 569689925051314400)]
  | 32 => Some [(136806907525921800, 350930500473504800); (719424422736583300, 813719736545283500); (1761887220624678000, 1269603265463103000); (3254696203113015000, 1713693145651072000); (5183942211697394000, 2141794901111334000); (7531619313371501000, 2549902963118809000); (10275810201602880000, 2934204673926777000); (13390894062985520000, 3291111138818092000); (16847786653489240000, 3617289705442425000); (20614212137961880000, 3909694789353516000); (24655004553388530000, 4165596211347337000); (28932436193468230000, 4382604650220191000); (33406569885893620000, 4558693934788195000); (38035631887393150000, 4692219954040228000); (42776401920860170000, 4781936003963743000); (47584616715613080000, 4827004425736390000); (52415383284386920000, 4827004425736390000); (57223598079139830000, 4781936003963743000); (61964368112606850000, 4692219954040228000); (66593430114106380000, 4558693934788195000); (71067563806531760000, 4382604650220191000); (75344995446611470000, 4165596211347337000); (79385787862038120000, 3909694789353516000); (83152213346510760000, 3617289705442425000); (86609105937014490000, 3291111138818092000); (89724189798397120000, 2934204673926777000); (92468380686628490000, 2549902963118809000); (94816057788302610000, 2141794901111334000); (96745303796886980000, 1713693145651072000); (98238112779375320000, 1269603265463103000); (99280575577263420000, 813719736545283500); (99863193092474080000, 350930500473504800)]
  | 40 => Some [(88114514472039980, 226063854926659500); (463688065027149700, 524914226557640600); (1137002500811287000, 821052919095394500); (2104159039310417000, 1112292459708348000); (3359359586066173000, 1396850349001170000); (4895059651556285000, 1673009764127392000); (6702024839387025000, 1939108398723601000); (8769388458334416000, 2193545409283663000); (11084717428674030000, 2434790381753612000); (13634087240503650000, 2661392349196841000); (16402165769291020000, 2871988454969578000); (19372305516600990000, 3065312124646447000); (22526643745243590000, 3240200672830052000); (25846209915691070000, 3395602290761695000); (29311039781419750000, 3530582369564339000); (32900295458712080000, 3644329119790203000); (36592390749637320000, 3736158452898413000); (40365120964931440000, 3805518095031312000); (44195796466237240000, 3851990908212399000); (48061379124697460000, 3875297398921240000); (51938620875302540000, 3875297398921240000); (55804203533762760000, 3851990908212399000); (59634879035068560000, 3805518095031312000); (63407609250362680000, 3736158452898413000); (67099704541287920000, 3644329119790203000); (70688960218580250000, 3530582369564339000); (74153790084308930000, 3395602290761695000); (77473356254756410000, 3240200672830052000); (80627694483399020000, 3065312124646447000); (83597834230708980000, 2871988454969578000); (86365912759496350000, 2661392349196841000); (88915282571325970000, 2434790381753612000); (91230611541665580000, 2193545409283663000); (93297975160612980000, 1939108398723601000); (95104940348443710000, 1673009764127392000); (96640640413933830000, 1396850349001170000); (97895840960689580000, 1112292459708348000); (98862997499188710000, 821052919095394500); (99536311934972850000, 524914226557640600); (99911885485527960000, 226063854926659500)]
  | _ => None
  end.
(** the double-precision number nearest to D/10^20 (ties to even), multiplied by 2^64; for numbers between 2^-11 and 1, whose unit in the
    last place is a multiple of 2^-64 *)
Definition toDouble (D : Z) : Z :=
  let (q0, r0) := Z.div_eucl (D * 2 ^ 64) (10 ^ 20) in
  let sh := Z.log2 q0 - 52 in
  let den := 10 ^ 20 * 2 ^ sh in
  let q := Z.shiftr q0 sh in
  let r := (q0 - Z.shiftl q sh) * 10 ^ 20 + r0 in
  Z.shiftl (if (den <? 2 * r) || ((den =? 2 * r) && Z.odd q) then q + 1 else q) sh.
(** math_glquadrature.h:63-64: GLPOINTS[n], GLWEIGHTS[n]; None is a null pointer *)
Definition glRule (n : Z) : option (list (Z * Z)) :=
  match glLiterals n with Some l => Some (map (fun pw => (toDouble (fst pw), toDouble (snd pw))) l) | None => None end.
Definition frac64 (m : Z) : R := (IZR m / 2 ^ 64)%R.
(** GLPOINTS[n][k], GLWEIGHTS[n][k] *)
Definition glEntry (n k : Z) : Z * Z := match glRule n with Some l => nth (Z.to_nat k) l (0, 0) | None => (0, 0) end.
Definition glTab : gltab := mkGL (fun n k => frac64 (fst (glEntry n k))) (fun n k => frac64 (snd (glEntry n k))).
(** reading GLPOINTS[n][k], GLWEIGHTS[n][k] with n in the range of the table *)
Definition glAt (n k : Z) : res (R * R) :=
  match glRule n with
  | Some l => match nth_error l (Z.to_nat k) with Some pw => Ok (frac64 (fst pw), frac64 (snd pw)) | None => UB end
  | None => UB
  end.

(** math_core.cpp:1117 while(GLPOINTS[N] == NULL) N++; the array has MAX_GL_ORDER+1 elements *)
Fixpoint nextRule (fuel : nat) (N : Z) : res Z :=
  if (N <? 0) || (MAX_GL_ORDER <? N) then UB else
  match glRule N with
  | Some _ => Ok N
  | None => match fuel with O => Fuel | S f => nextRule f (N + 1) end
  end.
(** math_core.cpp:1109-1123 *)
Definition integrateGL (fnc : R -> res R) (x1 x2 : R) (N : Z) : res R :=
  if (N <? 1) || (MAX_GL_ORDER <? N) then Throw else
  if Req_b x1 x2 then Ok 0%R else
  N <- nextRule 41 N ;;
  result <- for_ 0 N (fun i result =>
    pw <- glAt N i ;;
    v <- fnc (x2 * fst pw + x1 * (1 - fst pw))%R ;;
    Ok (result + snd pw * v)%R) 0%R ;;
  Ok (result * (x2 - x1))%R.
(** math_core.cpp:1126-1155 for a function of one variable returning M values; [fnc x] is the array of M values at the point x (evalmany
    evaluates the function at each point) *)
Definition integrateGLmany (M : Z) (fnc : R -> arr R) (x1 x2 : R) (N : Z) (result : arr R) : res (arr R) :=
  if (N <? 1) || (MAX_GL_ORDER <? N) then Throw else
  result <- for_ 0 M (fun k result => aset result k 0%R) result ;;
  if Req_b x1 x2 then Ok result else
  N <- nextRule 41 N ;;
  for_ 0 N (fun i result =>
    pw <- glAt N i ;;
    for_ 0 M (fun k result =>
      v <- aget (fnc (x2 * fst pw + x1 * (1 - fst pw))%R) k ;;
      r <- aget result k ;;
      aset result k (r + snd pw * (x2 - x1) * v)%R) result) result.
(** math_core.cpp:1182-1202 prepareIntegrationTableGL; [newton n i] is getGLnodeAndWeight(n, i) (lines 1158-1180), not modelled *)
Definition prepareTable (newton : Z -> Z -> res (R * R)) (x1 x2 : R) (N : Z) (nodes weights : arr R) : res (arr R * arr R) :=
  if (N <=? MAX_GL_ORDER) && (N <? 0) then UB else
  let fill (at_ : Z -> res (R * R)) (lo hi : R -> R) (wt : R -> R) :=
    for_ 0 (Z.quot N 2 + 1) (fun i (st : arr R * arr R) =>
      let (nodes, weights) := st in
      pw <- at_ i ;;
      nodes <- aset nodes i (lo (fst pw)) ;;
      nodes <- aset nodes (N - 1 - i) (hi (fst pw)) ;;
      weights <- aset weights (N - 1 - i) (wt (snd pw)) ;;
      weights <- aset weights i (wt (snd pw)) ;;
      Ok (nodes, weights)) (nodes, weights) in
  match (if N <=? MAX_GL_ORDER then glRule N else None) with
  | Some _ => fill (glAt N) (fun p => x1 + p * (x2 - x1))%R (fun p => x2 - p * (x2 - x1))%R (fun w => w * (x2 - x1))%R
  | None => fill (newton N) (fun x => / 2 * (x1 + x2 - x * (x2 - x1)))%R (fun x => / 2 * (x1 + x2 + x * (x2 - x1)))%R (fun w => / 2 * w * (x2 - x1))%R
  end.
