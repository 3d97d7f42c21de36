(** * Quadrature tables (C32)

    Generated from the decimal constants in polynomials.hpp; every number is the constant times 10^22. *)
From Coq Require Import ZArith List.
Import ListNotations.
Local Open Scope Z_scope.

(** polynomials.hpp:45-54 GaussLegendreNodes on SEGMENT *)
Definition seg_nodes (n : nat) : option (list (list Z)) :=
  match n with
  | 1%nat => Some [[5000000000000000000000]]
  | 2%nat => Some [[2113248654051871000000];
      [7886751345948129000000]]
  | 3%nat => Some [[1127016653792583000000];
      [5000000000000000000000];
      [8872983346207420000000]]
  | 4%nat => Some [[694318442029737000000];
      [3300094782075720000000];
      [6699905217924280000000];
      [9305681557970260000000]]
  | 5%nat => Some [[469100770306680000000];
      [2307653449471580000000];
      [5000000000000000000000];
      [7692346550528420000000];
      [9530899229693320000000]]
  | 6%nat => Some [[337652428984240000000];
      [1693953067668680000000];
      [3806904069584020000000];
      [6193095930415980000000];
      [8306046932331320000000];
      [9662347571015760000000]]
  | 7%nat => Some [[254460438286207000000];
      [1292344072003030000000];
      [2970774243113010000000];
      [5000000000000000000000];
      [7029225756886990000000];
      [8707655927997000000000];
      [9745539561713800000000]]
  | 8%nat => Some [[198550717512319000000];
      [1016667612931870000000];
      [2372337950418360000000];
      [4082826787521750000000];
      [5917173212478250000000];
      [7627662049581600000000];
      [8983332387068100000000];
      [9801449282487700000000]]
  | _ => None
  end.
(** polynomials.hpp:274-283 GaussLegendreWeights on SEGMENT *)
Definition seg_weights (n : nat) : option (list Z) :=
  match n with
  | 1%nat => Some [10000000000000000000000]
  | 2%nat => Some [5000000000000000000000; 5000000000000000000000]
  | 3%nat => Some [2777777777777780000000; 4444444444444440000000; 2777777777777780000000]
  | 4%nat => Some [1739274225687270000000; 3260725774312730000000; 3260725774312730000000; 1739274225687270000000]
  | 5%nat => Some [1184634425280950000000; 2393143352496830000000; 2844444444444440000000; 2393143352496830000000; 1184634425280950000000]
  | 6%nat => Some [856622461895850000000; 1803807865240690000000; 2339569672863460000000; 2339569672863460000000; 1803807865240690000000; 856622461895850000000]
  | 7%nat => Some [647424830844348000000; 1398526957446380000000; 1909150252525590000000; 2089795918367350000000; 1909150252525590000000; 1398526957446380000000; 647424830844348000000]
  | 8%nat => Some [506142681451881000000; 1111905172266870000000; 1568533229389440000000; 1813418916891810000000; 1813418916891810000000; 1568533229389440000000; 1111905172266870000000; 506142681451881000000]
  | _ => None
  end.
(** polynomials.hpp:57-112 GaussLegendreNodes on TRIANGLE *)
Definition tri_nodes (n : nat) : option (list (list Z)) :=
  match n with
  | 1%nat => Some [[3333333333333330000000; 3333333333333330000000]]
  | 2%nat => Some [[1666666666666670000000; 1666666666666670000000];
      [1666666666666670000000; 6666666666666670000000];
      [6666666666666670000000; 1666666666666670000000]]
  | 3%nat => Some [[915762135097800000000; 915762135097800000000];
      [915762135097800000000; 8168475729804400000000];
      [8168475729804400000000; 915762135097800000000];
      [1081030181680710000000; 4459484909159640000000];
      [4459484909159640000000; 1081030181680710000000];
      [4459484909159640000000; 4459484909159640000000]]
  | 4%nat => Some [[555640526697930000000; 555640526697930000000];
      [555640526697930000000; 8888718946604130000000];
      [8888718946604130000000; 555640526697930000000];
      [702555405183840000000; 6342107477457230000000];
      [6342107477457230000000; 702555405183840000000];
      [6342107477457230000000; 2955337117358930000000];
      [702555405183840000000; 2955337117358930000000];
      [2955337117358930000000; 702555405183840000000];
      [2955337117358930000000; 6342107477457230000000];
      [3333333333333330000000; 3333333333333330000000]]
  | 5%nat => Some [[358708776957340005900; 358708776957340005900];
      [358708776957340005900; 9282582446085330119000];
      [9282582446085330119000; 358708776957340005900];
      [2417293957679670091100; 2417293957679670091100];
      [2417293957679670091100; 5165412084640660372900];
      [5165412084640660372900; 2417293957679670091100];
      [513824244458429973960; 4743087877770790217200];
      [4743087877770790217200; 513824244458429973960];
      [4743087877770790217200; 4743087877770790217200];
      [473124870117160034600; 7511836311064840066000];
      [7511836311064840066000; 473124870117160034600];
      [7511836311064840066000; 2015038818817999899400];
      [473124870117160034600; 2015038818817999899400];
      [2015038818817999899400; 473124870117160034600];
      [2015038818817999899400; 7511836311064840066000]]
  | _ => None
  end.
(** polynomials.hpp:285-312 GaussLegendreWeights on TRIANGLE *)
Definition tri_weights (n : nat) : option (list Z) :=
  match n with
  | 1%nat => Some [5000000000000000000000]
  | 2%nat => Some [1666666666666670000000; 1666666666666670000000; 1666666666666670000000]
  | 3%nat => Some [549758718276665000000; 549758718276665000000; 549758718276665000000; 1116907948390000000000; 1116907948390000000000; 1116907948390000000000]
  | 4%nat => Some [209777564983245000000; 209777564983245000000; 209777564983245000000; 560492060354435000000; 560492060354435000000; 560492060354435000000; 560492060354435000000; 560492060354435000000; 560492060354435000000; 1007714942923650000000]
  | 5%nat => Some [89577275061514995830; 89577275061514995830; 89577275061514995830; 638560979406325029960; 638560979406325029960; 638560979406325029960; 381030311927674988910; 381030311927674988910; 381030311927674988910; 278749050135575007770; 278749050135575007770; 278749050135575007770; 278749050135575007770; 278749050135575007770; 278749050135575007770]
  | _ => None
  end.
(** polynomials.hpp:115-260 GaussLegendreNodes on TETRAHEDRON *)
Definition tet_nodes (n : nat) : option (list (list Z)) :=
  match n with
  | 1%nat => Some [[2500000000000000000000; 2500000000000000000000; 2500000000000000000000]]
  | 2%nat => Some [[5854101966249679360000; 1381966011250110080000; 1381966011250110080000];
      [1381966011250110080000; 5854101966249679360000; 1381966011250110080000];
      [1381966011250110080000; 1381966011250110080000; 5854101966249679360000];
      [1381966011250110080000; 1381966011250110080000; 1381966011250110080000]]
  | 3%nat => Some [[7784952948213299200000; 738349017262233984000; 738349017262233984000];
      [738349017262233984000; 7784952948213299200000; 738349017262233984000];
      [738349017262233984000; 738349017262233984000; 7784952948213299200000];
      [738349017262233984000; 738349017262233984000; 738349017262233984000];
      [4062443438840510080000; 4062443438840510080000; 937556561159491072000];
      [4062443438840510080000; 937556561159491072000; 4062443438840510080000];
      [4062443438840510080000; 937556561159491072000; 937556561159491072000];
      [937556561159491072000; 4062443438840510080000; 4062443438840510080000];
      [937556561159491072000; 4062443438840510080000; 937556561159491072000];
      [937556561159491072000; 937556561159491072000; 4062443438840510080000]]
  | 4%nat => Some [[9029422158182679040000; 323525947272438976000; 323525947272438976000];
      [323525947272438976000; 9029422158182679040000; 323525947272438976000];
      [323525947272438976000; 323525947272438976000; 9029422158182679040000];
      [323525947272438976000; 323525947272438976000; 323525947272438976000];
      [2626825838877789760000; 6165965330619368960000; 603604415251420928000];
      [6165965330619368960000; 2626825838877789760000; 603604415251420928000];
      [2626825838877789760000; 603604415251420928000; 6165965330619368960000];
      [6165965330619368960000; 603604415251420928000; 2626825838877789760000];
      [2626825838877789760000; 603604415251420928000; 603604415251420928000];
      [6165965330619368960000; 603604415251420928000; 603604415251420928000];
      [603604415251420928000; 2626825838877789760000; 6165965330619368960000];
      [603604415251420928000; 6165965330619368960000; 2626825838877789760000];
      [603604415251420928000; 2626825838877789760000; 603604415251420928000];
      [603604415251420928000; 6165965330619368960000; 603604415251420928000];
      [603604415251420928000; 603604415251420928000; 2626825838877789760000];
      [603604415251420928000; 603604415251420928000; 6165965330619368960000];
      [3097693042728619520000; 3097693042728619520000; 3097693042728619520000];
      [3097693042728619520000; 3097693042728619520000; 706920871814129024000];
      [3097693042728619520000; 706920871814129024000; 3097693042728619520000];
      [706920871814129024000; 3097693042728619520000; 3097693042728619520000]]
  | 5%nat => Some [[9197896733368800000000; 267367755543734976000; 267367755543734976000];
      [267367755543734976000; 9197896733368800000000; 267367755543734976000];
      [267367755543734976000; 267367755543734976000; 9197896733368800000000];
      [267367755543734976000; 267367755543734976000; 267367755543734976000];
      [1740356302468940160000; 7477598884818090240000; 391022406356488000000];
      [7477598884818090240000; 1740356302468940160000; 391022406356488000000];
      [1740356302468940160000; 391022406356488000000; 7477598884818090240000];
      [7477598884818090240000; 391022406356488000000; 1740356302468940160000];
      [1740356302468940160000; 391022406356488000000; 391022406356488000000];
      [7477598884818090240000; 391022406356488000000; 391022406356488000000];
      [391022406356488000000; 1740356302468940160000; 7477598884818090240000];
      [391022406356488000000; 7477598884818090240000; 1740356302468940160000];
      [391022406356488000000; 1740356302468940160000; 391022406356488000000];
      [391022406356488000000; 7477598884818090240000; 391022406356488000000];
      [391022406356488000000; 391022406356488000000; 1740356302468940160000];
      [391022406356488000000; 391022406356488000000; 7477598884818090240000];
      [4547545999844830080000; 4547545999844830080000; 452454000155171968000];
      [4547545999844830080000; 452454000155171968000; 4547545999844830080000];
      [4547545999844830080000; 452454000155171968000; 452454000155171968000];
      [452454000155171968000; 4547545999844830080000; 4547545999844830080000];
      [452454000155171968000; 4547545999844830080000; 452454000155171968000];
      [452454000155171968000; 452454000155171968000; 4547545999844830080000];
      [5031186450145980160000; 2232010379623150080000; 2232010379623150080000];
      [2232010379623150080000; 5031186450145980160000; 2232010379623150080000];
      [2232010379623150080000; 2232010379623150080000; 5031186450145980160000];
      [5031186450145980160000; 2232010379623150080000; 504792790607720000000];
      [2232010379623150080000; 5031186450145980160000; 504792790607720000000];
      [2232010379623150080000; 2232010379623150080000; 504792790607720000000];
      [5031186450145980160000; 504792790607720000000; 2232010379623150080000];
      [2232010379623150080000; 504792790607720000000; 5031186450145980160000];
      [2232010379623150080000; 504792790607720000000; 2232010379623150080000];
      [504792790607720000000; 5031186450145980160000; 2232010379623150080000];
      [504792790607720000000; 2232010379623150080000; 5031186450145980160000];
      [504792790607720000000; 2232010379623150080000; 2232010379623150080000];
      [2500000000000000000000; 2500000000000000000000; 2500000000000000000000]]
  | 6%nat => Some [[9551438045408220160000; 149520651530592000000; 149520651530592000000];
      [149520651530592000000; 9551438045408220160000; 149520651530592000000];
      [149520651530592000000; 149520651530592000000; 9551438045408220160000];
      [149520651530592000000; 149520651530592000000; 149520651530592000000];
      [7799760084415399680000; 1518319491659369920000; 340960211962614976000];
      [1518319491659369920000; 7799760084415399680000; 340960211962614976000];
      [7799760084415399680000; 340960211962614976000; 1518319491659369920000];
      [1518319491659369920000; 340960211962614976000; 7799760084415399680000];
      [7799760084415399680000; 340960211962614976000; 340960211962614976000];
      [1518319491659369920000; 340960211962614976000; 340960211962614976000];
      [340960211962614976000; 7799760084415399680000; 1518319491659369920000];
      [340960211962614976000; 1518319491659369920000; 7799760084415399680000];
      [340960211962614976000; 7799760084415399680000; 340960211962614976000];
      [340960211962614976000; 1518319491659369920000; 340960211962614976000];
      [340960211962614976000; 340960211962614976000; 7799760084415399680000];
      [340960211962614976000; 340960211962614976000; 1518319491659369920000];
      [3549340560639790080000; 5526556431060170240000; 462051504150017024000];
      [5526556431060170240000; 3549340560639790080000; 462051504150017024000];
      [3549340560639790080000; 462051504150017024000; 5526556431060170240000];
      [5526556431060170240000; 462051504150017024000; 3549340560639790080000];
      [3549340560639790080000; 462051504150017024000; 462051504150017024000];
      [5526556431060170240000; 462051504150017024000; 462051504150017024000];
      [462051504150017024000; 3549340560639790080000; 5526556431060170240000];
      [462051504150017024000; 5526556431060170240000; 3549340560639790080000];
      [462051504150017024000; 3549340560639790080000; 462051504150017024000];
      [462051504150017024000; 5526556431060170240000; 462051504150017024000];
      [462051504150017024000; 462051504150017024000; 3549340560639790080000];
      [462051504150017024000; 462051504150017024000; 5526556431060170240000];
      [5381043228880020480000; 2281904610687609920000; 2281904610687609920000];
      [2281904610687609920000; 5381043228880020480000; 2281904610687609920000];
      [2281904610687609920000; 2281904610687609920000; 5381043228880020480000];
      [5381043228880020480000; 2281904610687609920000; 55147549744774995200];
      [2281904610687609920000; 5381043228880020480000; 55147549744774995200];
      [2281904610687609920000; 2281904610687609920000; 55147549744774995200];
      [5381043228880020480000; 55147549744774995200; 2281904610687609920000];
      [2281904610687609920000; 55147549744774995200; 5381043228880020480000];
      [2281904610687609920000; 55147549744774995200; 2281904610687609920000];
      [55147549744774995200; 5381043228880020480000; 2281904610687609920000];
      [55147549744774995200; 2281904610687609920000; 5381043228880020480000];
      [55147549744774995200; 2281904610687609920000; 2281904610687609920000];
      [1961837595745600000000; 3523052600879939840000; 3523052600879939840000];
      [3523052600879939840000; 1961837595745600000000; 3523052600879939840000];
      [3523052600879939840000; 3523052600879939840000; 1961837595745600000000];
      [1961837595745600000000; 3523052600879939840000; 992057202494530048000];
      [3523052600879939840000; 1961837595745600000000; 992057202494530048000];
      [3523052600879939840000; 3523052600879939840000; 992057202494530048000];
      [1961837595745600000000; 992057202494530048000; 3523052600879939840000];
      [3523052600879939840000; 992057202494530048000; 1961837595745600000000];
      [3523052600879939840000; 992057202494530048000; 3523052600879939840000];
      [992057202494530048000; 1961837595745600000000; 3523052600879939840000];
      [992057202494530048000; 3523052600879939840000; 1961837595745600000000];
      [992057202494530048000; 3523052600879939840000; 3523052600879939840000];
      [5965649956210169600000; 1344783347929940160000; 1344783347929940160000];
      [1344783347929940160000; 5965649956210169600000; 1344783347929940160000];
      [1344783347929940160000; 1344783347929940160000; 5965649956210169600000];
      [1344783347929940160000; 1344783347929940160000; 1344783347929940160000]]
  | _ => None
  end.
(** polynomials.hpp:314-366 GaussLegendreWeights on TETRAHEDRON *)
Definition tet_weights (n : nat) : option (list Z) :=
  match n with
  | 1%nat => Some [1666666666666666560000]
  | 2%nat => Some [416666666666666624000; 416666666666666624000; 416666666666666624000; 416666666666666624000]
  | 3%nat => Some [79388558072014822400; 79388558072014822400; 79388558072014822400; 79388558072014822400; 224852072396435040000; 224852072396435040000; 224852072396435040000; 224852072396435040000; 224852072396435040000; 224852072396435040000]
  | 4%nat => Some [11778457990782500800; 11778457990782500800; 11778457990782500800; 11778457990782500800; 78331114953146176000; 78331114953146176000; 78331114953146176000; 78331114953146176000; 78331114953146176000; 78331114953146176000; 78331114953146176000; 78331114953146176000; 78331114953146176000; 78331114953146176000; 78331114953146176000; 78331114953146176000; 169894863816446688000; 169894863816446688000; 169894863816446688000; 169894863816446688000]
  | 5%nat => Some [3650077327564666240; 3650077327564666240; 3650077327564666240; 3650077327564666240; 23899278362944166400; 23899278362944166400; 23899278362944166400; 23899278362944166400; 23899278362944166400; 23899278362944166400; 23899278362944166400; 23899278362944166400; 23899278362944166400; 23899278362944166400; 23899278362944166400; 23899278362944166400; 41717565947791008000; 41717565947791008000; 41717565947791008000; 41717565947791008000; 41717565947791008000; 41717565947791008000; 79973222176258995200; 79973222176258995200; 79973222176258995200; 79973222176258995200; 79973222176258995200; 79973222176258995200; 79973222176258995200; 79973222176258995200; 79973222176258995200; 79973222176258995200; 79973222176258995200; 79973222176258995200; 155290955199223328000]
  | 6%nat => Some [1728852056023333440; 1728852056023333440; 1728852056023333440; 1728852056023333440; 16002774233246665600; 16002774233246665600; 16002774233246665600; 16002774233246665600; 16002774233246665600; 16002774233246665600; 16002774233246665600; 16002774233246665600; 16002774233246665600; 16002774233246665600; 16002774233246665600; 16002774233246665600; 27415662799705331200; 27415662799705331200; 27415662799705331200; 27415662799705331200; 27415662799705331200; 27415662799705331200; 27415662799705331200; 27415662799705331200; 27415662799705331200; 27415662799705331200; 27415662799705331200; 27415662799705331200; 25624627752218332800; 25624627752218332800; 25624627752218332800; 25624627752218332800; 25624627752218332800; 25624627752218332800; 25624627752218332800; 25624627752218332800; 25624627752218332800; 25624627752218332800; 25624627752218332800; 25624627752218332800; 48920019729204998400; 48920019729204998400; 48920019729204998400; 48920019729204998400; 48920019729204998400; 48920019729204998400; 48920019729204998400; 48920019729204998400; 48920019729204998400; 48920019729204998400; 48920019729204998400; 48920019729204998400; 61048561067517990400; 61048561067517990400; 61048561067517990400; 61048561067517990400]
  | _ => None
  end.
