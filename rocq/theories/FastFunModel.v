(* Model of audio/dsp/portable/fast_fun.{h,c}, bit by bit: int32_t values are
   integers, floats are the real numbers they stand for, and float operations
   round to nearest even in the binary32 format (Flocq).  Inputs are positive
   normal floats given by their bits (FastLog2) or arbitrary reals, in
   particular all floats, of the documented range (FastExp2, FastPow, FastTanh). *)
From Coq Require Import ZArith Reals List.
From Flocq Require Import Core.
From Verif Require Import RealUtil.
Import ListNotations.
Local Open Scope R_scope.

(* Rounding to a float. *)
Definition rnd32 (x : R) : R := round radix2 (FLT_exp (-149) 24) ZnearestE x.

(* The value of a positive normal float with the given bits. *)
Definition float_of_bits (b : Z) : R :=
  IZR (2 ^ 23 + b mod 2 ^ 23) * bpow radix2 (b / 2 ^ 23 - 127 - 23).

(* The bits of a positive normal float (memcpy to int32_t). *)
Definition bits_of_float (v : R) : Z :=
  let e := (mag radix2 v - 1)%Z in
  ((e + 127) * 2 ^ 23 + (Ztrunc (v * bpow radix2 (23 - e)) - 2 ^ 23))%Z.

(* fast_fun.c:8-60, the decimal literals times 10^11. *)
Definition log2_table : list Z :=
  ([
   281227450; 842590258; 1401777190; 1958804950; 2513690480; 3066449980; 3617099670; 4165655370;
   4712133480; 5256549270; 5798918380; 6339256470; 6877577300; 7413897660; 7948231700; 8480594310;
   9010998900; 9539461140; 10065994400; 10590612900; 11113331500; 11634162100; 12153119600; 12670216000;
   13185466800; 13698883400; 14210480500; 14720268500; 15228261100; 15734472900; 16238912900; 16741596200;
   17242534500; 17741738300; 18239221000; 18734994500; 19229070800; 19721460300; 20212175000; 20701225100;
   21188624200; 21674382700; 22158509500; 22641018000; 23121918700; 23601220500; 24078936900; 24555075200;
   25029647400; 25502663900; 25974133600; 26444068600; 26912477600; 27379372700; 27844759800; 28308650900;
   28771054700; 29231980400; 29691436900; 30149439000; 30605989700; 31061098000; 31514778700; 31967034900;
   32417878500; 32867318400; 33315360500; 33762016900; 34207296400; 34651202000; 35093748600; 35534942200;
   35974788700; 36413300000; 36850482200; 37286341200; 37720888900; 38154134200; 38586080100; 39016735600;
   39446109500; 39874211000; 40301045800; 40726620000; 41150942400; 41574022200; 41995865100; 42416477200;
   42835864400; 43254038700; 43671003000; 44086766200; 44501337400; 44914716500; 45326915400; 45737943100;
   46147799500; 46556496600; 46964037400; 47370430800; 47775685800; 48179802300; 48582789300; 48984655700;
   49385407600; 49785044800; 50183582300; 50581020100; 50977367200; 51372623400; 51766806800; 52159911400;
   52551949000; 52942925700; 53332841400; 53721708100; 54109531600; 54496312100; 54882061500; 55266779700;
   55650478600; 56033158300; 56414824700; 56795483800; 57175141600; 57553798000; 57931470900; 58308154300;
   58683854300; 59058582800; 59432339700; 59805131000; 60176956700; 60547834600; 60917753000; 61286729600;
   61654764400; 62021863500; 62388032700; 62753272100; 63117593500; 63480991100; 63843476800; 64205056400;
   64565730100; 64925503700; 65284383300; 65642374800; 65999478100; 66355699300; 66711044300; 67065519100;
   67419117700; 67771858000; 68123734000; 68474757700; 68824923000; 69174248000; 69522726500; 69870364700;
   70217162400; 70563137500; 70908278200; 71252596400; 71596097900; 71938782900; 72280651300; 72621715100;
   72961974100; 73301434500; 73640096200; 73977965100; 74315041300; 74651336700; 74986845300; 75321579000;
   75655537800; 75988721800; 76321142900; 76652795100; 76983690300; 77313828500; 77643209700; 77971839900;
   78299725100; 78626871100; 78953272100; 79278940000; 79603868700; 79928070300; 80251544700; 80574297900;
   80896329900; 81217640600; 81538242100; 81858128300; 82177311200; 82495784800; 82813561000; 83130639800;
   83447021200; 83762705300; 84077704000; 84392017100; 84705650800; 85018599000; 85330873700; 85642468900;
   85953396600; 86263650700; 86573243100; 86882174000; 87190443300; 87498050900; 87805008900; 88111317200;
   88416969800; 88721978700; 89026349800; 89330071200; 89633160800; 89935612700; 90237432700; 90538620900;
   90839183300; 91139119900; 91438436500; 91737133300; 92035210100; 92332673100; 92629522100; 92925763100;
   93221402200; 93516427300; 93810856300; 94104683400; 94397914400; 94690555300; 94982600200; 95274049000;
   95564919700; 95855200300; 96144896700; 96434015000; 96722555200; 97010517100; 97297906900; 97584724400;
   97870975700; 98156654800; 98441773700; 98726332200; 99010324500; 99293762400; 99576646100; 99858975400
   ])%Z.

(* fast_fun.c:62-95 *)
Definition exp2_table : list Z :=
  ([
   0; 22744; 45549; 68417; 91346; 114337; 137391; 160508;
   183687; 206928; 230233; 253601; 277033; 300528; 324086; 347709;
   371395; 395146; 418961; 442841; 466786; 490795; 514870; 539009;
   563215; 587485; 611822; 636225; 660693; 685229; 709830; 734499;
   759234; 784036; 808906; 833843; 858847; 883920; 909060; 934269;
   959546; 984891; 1010305; 1035788; 1061340; 1086962; 1112653; 1138413;
   1164244; 1190144; 1216115; 1242156; 1268267; 1294450; 1320703; 1347028;
   1373424; 1399891; 1426431; 1453042; 1479725; 1506481; 1533309; 1560210;
   1587184; 1614231; 1641352; 1668546; 1695814; 1723155; 1750571; 1778061;
   1805626; 1833265; 1860979; 1888769; 1916634; 1944574; 1972590; 2000682;
   2028850; 2057095; 2085416; 2113814; 2142289; 2170841; 2199471; 2228178;
   2256963; 2285826; 2314768; 2343787; 2372886; 2402063; 2431320; 2460655;
   2490071; 2519566; 2549141; 2578796; 2608532; 2638348; 2668245; 2698223;
   2728283; 2758424; 2788646; 2818951; 2849338; 2879807; 2910359; 2940993;
   2971711; 3002512; 3033396; 3064365; 3095417; 3126553; 3157774; 3189079;
   3220470; 3251945; 3283506; 3315152; 3346884; 3378702; 3410607; 3442598;
   3474675; 3506840; 3539092; 3571431; 3603858; 3636373; 3668976; 3701667;
   3734447; 3767316; 3800274; 3833322; 3866459; 3899686; 3933003; 3966410;
   3999908; 4033496; 4067176; 4100947; 4134810; 4168764; 4202811; 4236950;
   4271181; 4305505; 4339922; 4374433; 4409037; 4443735; 4478527; 4513413;
   4548394; 4583470; 4618641; 4653907; 4689269; 4724727; 4760281; 4795931;
   4831678; 4867522; 4903463; 4939501; 4975637; 5011871; 5048204; 5084635;
   5121164; 5157793; 5194521; 5231349; 5268276; 5305304; 5342432; 5379660;
   5416990; 5454421; 5491953; 5529587; 5567323; 5605161; 5643102; 5681146;
   5719293; 5757543; 5795898; 5834356; 5872918; 5911585; 5950357; 5989234;
   6028216; 6067304; 6106498; 6145798; 6185205; 6224718; 6264339; 6304067;
   6343903; 6383847; 6423899; 6464060; 6504330; 6544709; 6585197; 6625795;
   6666503; 6707322; 6748251; 6789291; 6830443; 6871706; 6913081; 6954568;
   6996167; 7037880; 7079705; 7121644; 7163696; 7205863; 7248144; 7290539;
   7333050; 7375676; 7418417; 7461274; 7504247; 7547337; 7590544; 7633868;
   7677309; 7720868; 7764546; 7808341; 7852256; 7896289; 7940442; 7984715;
   8029107; 8073620; 8118254; 8163008; 8207884; 8252882; 8298002; 8343244
   ])%Z.

(* An element of kFastFunLog2Table: the literal rounded to float. *)
Definition log2_entry (s : Z) : R :=
  rnd32 (IZR (nth (Z.to_nat s) log2_table 0%Z) / IZR (10 ^ 11)).

(* fast_fun.h:107-124 *)
Definition fast_log2 (x_bits : Z) : R :=
  let significand := Z.land (Z.shiftr x_bits (23 - 8)) (Z.shiftl 1 8 - 1) in
  rnd32 (IZR (Z.land (Z.shiftr x_bits 23) 255 - 127) + log2_entry significand).

(* fast_fun.h:149-168 *)
Definition fast_exp2 (x : R) : R :=
  let y := rnd32 (x + IZR (127 + Z.shiftl 1 (23 - 8))) in
  let y_bits := bits_of_float y in
  let result_bits :=
    Z.lor (Z.shiftl (Z.land y_bits (Z.shiftl 255 8)) (23 - 8))
          (nth (Z.to_nat (Z.land y_bits 255)) exp2_table 0%Z) in
  float_of_bits result_bits.

(* fast_fun.h:182 *)
Definition fast_pow (x_bits : Z) (y : R) : R := fast_exp2 (rnd32 (fast_log2 x_bits * y)).

(* (float)(2.0 / M_LN2): the nearest float to 2 / log 2, a compile-time constant. *)
Definition two_over_ln2 : R := IZR 12102203 / IZR (2 ^ 22).
(* 9.011f *)
Definition tanh_limit : R := rnd32 (9011 / 1000).

(* fast_fun.h:192-198 *)
Definition fast_tanh (x : R) : R :=
  if Rleb tanh_limit x then 1
  else if Rleb x (- tanh_limit) then -1
  else let exp_2x := fast_exp2 (rnd32 (two_over_ln2 * x)) in
       rnd32 (rnd32 (exp_2x - 1) / rnd32 (exp_2x + 1)).
