(** * The circuits of /repo/testdata: the files, the data they stand for, and the gates *)
From Coq Require Import String.
From Coq Require Import ZArith List.
From Verif Require Import Types Gates Deser.
Import ListNotations.
Open Scope Z_scope.

(** testdata/decode_block/common_circuit_data.json:1-177 *)
Definition block_json : json := JObj [
  ("config"%string, JObj [("num_wires"%string, JUint 136); ("num_routed_wires"%string, JUint 80); ("num_constants"%string, JUint 2); ("use_base_arithmetic_gate"%string, JBool true); ("security_bits"%string, JUint 100); ("num_challenges"%string, JUint 2); ("zero_knowledge"%string, JBool false); ("max_quotient_degree_factor"%string, JUint 8); ("fri_config"%string, JObj [("rate_bits"%string, JUint 3); ("cap_height"%string, JUint 4); ("proof_of_work_bits"%string, JUint 16); ("reduction_strategy"%string, JObj [("ConstantArityBits"%string, JArr [JUint 4; JUint 5])]); ("num_query_rounds"%string, JUint 28)])]);
  ("fri_params"%string, JObj [("config"%string, JObj [("rate_bits"%string, JUint 3); ("cap_height"%string, JUint 4); ("proof_of_work_bits"%string, JUint 16); ("reduction_strategy"%string, JObj [("ConstantArityBits"%string, JArr [JUint 4; JUint 5])]); ("num_query_rounds"%string, JUint 28)]); ("hiding"%string, JBool false); ("degree_bits"%string, JUint 12); ("reduction_arity_bits"%string, JArr [JUint 4; JUint 4])]);
  ("gates"%string, JArr [JStr "NoopGate"%string; JStr "ConstantGate { num_consts: 2 }"%string; JStr "PoseidonMdsGate(PhantomData<plonky2_field::goldilocks_field::GoldilocksField>)<WIDTH=12>"%string; JStr "PublicInputGate"%string; JStr "BaseSumGate { num_limbs: 63 } + Base: 2"%string; JStr "ReducingExtensionGate { num_coeffs: 33 }"%string; JStr "ReducingGate { num_coeffs: 44 }"%string; JStr "ArithmeticExtensionGate { num_ops: 10 }"%string; JStr "ArithmeticGate { num_ops: 20 }"%string; JStr "MulExtensionGate { num_ops: 13 }"%string; JStr "RandomAccessGate { bits: 4, num_copies: 4, num_extra_constants: 2, _phantom: PhantomData<plonky2_field::goldilocks_field::GoldilocksField> }<D=2>"%string; JStr "CosetInterpolationGate { subgroup_bits: 4, degree: 6, barycentric_weights: [17293822565076172801, 18374686475376656385, 18446744069413535745, 281474976645120, 17592186044416, 18446744069414584577, 18446744000695107601, 18446744065119617025, 1152921504338411520, 72057594037927936, 18446744069415632897, 18446462594437939201, 18446726477228539905, 18446744069414584065, 68719476720, 4294967296], _phantom: PhantomData<plonky2_field::goldilocks_field::GoldilocksField> }<D=2>"%string; JStr "PoseidonGate(PhantomData<plonky2_field::goldilocks_field::GoldilocksField>)<WIDTH=12>"%string]);
  ("selectors_info"%string, JObj [("selector_indices"%string, JArr [JUint 0; JUint 0; JUint 0; JUint 0; JUint 0; JUint 0; JUint 0; JUint 1; JUint 1; JUint 1; JUint 1; JUint 2; JUint 2]); ("groups"%string, JArr [JObj [("start"%string, JUint 0); ("end"%string, JUint 7)]; JObj [("start"%string, JUint 7); ("end"%string, JUint 11)]; JObj [("start"%string, JUint 11); ("end"%string, JUint 13)]])]);
  ("quotient_degree_factor"%string, JUint 8);
  ("num_gate_constraints"%string, JUint 123);
  ("num_constants"%string, JUint 5);
  ("num_public_inputs"%string, JUint 0);
  ("k_is"%string, JArr [JUint 1; JUint 7; JUint 49; JUint 343; JUint 2401; JUint 16807; JUint 117649; JUint 823543; JUint 5764801; JUint 40353607; JUint 282475249; JUint 1977326743; JUint 13841287201; JUint 96889010407; JUint 678223072849; JUint 4747561509943; JUint 33232930569601; JUint 232630513987207; JUint 1628413597910449; JUint 11398895185373143; JUint 79792266297612001; JUint 558545864083284007; JUint 3909821048582988049; JUint 8922003270666332022; JUint 7113790686420571191; JUint 12903046666114829695; JUint 16534350385145470581; JUint 5059988279530788141; JUint 16973173887300932666; JUint 8131752794619022736; JUint 1582037354089406189; JUint 11074261478625843323; JUint 3732854072722565977; JUint 7683234439643377518; JUint 16889152938674473984; JUint 7543606154233811962; JUint 15911754940807515092; JUint 701820169165099718; JUint 4912741184155698026; JUint 15942444219675301861; JUint 916645121239607101; JUint 6416515848677249707; JUint 8022122801911579307; JUint 814627405137302186; JUint 5702391835961115302; JUint 3023254712898638472; JUint 2716038920875884983; JUint 565528376716610560; JUint 3958698637016273920; JUint 9264146389699333119; JUint 9508792519651578870; JUint 11221315429317299127; JUint 4762231727562756605; JUint 14888878023524711914; JUint 11988425817600061793; JUint 10132004445542095267; JUint 15583798910550913906; JUint 16852872026783475737; JUint 7289639770996824233; JUint 14133990258148600989; JUint 6704211459967285318; JUint 10035992080941828584; JUint 14911712358349047125; JUint 12148266161370408270; JUint 11250886851934520606; JUint 4969231685883306958; JUint 16337877731768564385; JUint 3684679705892444769; JUint 7346013871832529062; JUint 14528608963998534792; JUint 9466542400916821939; JUint 10925564598174000610; JUint 2691975909559666986; JUint 397087297503084581; JUint 2779611082521592067; JUint 1010533508236560148; JUint 7073734557655921036; JUint 12622653764762278610; JUint 14571600075677612986; JUint 9767480182670369297]);
  ("num_partial_products"%string, JUint 9)].
(** testdata/decode_block/verifier_only_circuit_data.json:1-21 *)
Definition block_key_json : json := JObj [
  ("constants_sigmas_cap"%string, JArr [JStr "1499622638644728537774239858053278546400257982434845489329927574295172033326"%string; JStr "2930852415723089264561622935088329191815636786066772202039928107654951266023"%string; JStr "14464526654918087476596183134411486973966295253353738267325575394304709517161"%string; JStr "18983137502540745159803953284357786408225887846069384394220291955925143226141"%string; JStr "1386895482273961356932873002155159178542488359092693049720219479086930861707"%string; JStr "14771237880407068338879830535366644743003305760875598132537125639168034999022"%string; JStr "19702788661528474550894036146582137462836271070153286539426392895353557950694"%string; JStr "15334727368281990897779779337943379898609200739305205677598255362701124565320"%string; JStr "21691768748620820719274018448050849816536829760110881140528389629789448704790"%string; JStr "15262009449532190852183220678787716636953257578372619913911054925901367503449"%string; JStr "18166082909492900359627895435428332272663141560067836935272838076830554017630"%string; JStr "10686995103794494099325675278866631156892436169286799401423857508483307145846"%string; JStr "7660138004813546044706396059680360544539623731113711012915164533145284575301"%string; JStr "1616448650742704848585620443874003913130079345238283349517269437117477195625"%string; JStr "5734773590975050772666682899969130545487941904460247131732227238307211841652"%string; JStr "11959183492303708131395376843823862107323459381741154704909455973421596288592"%string]);
  ("circuit_digest"%string, JStr "11532502846882484230992726008257788785937565673229400981185786126842727172973"%string)].

(** testdata/step/common_circuit_data.json:1-181 *)
Definition step_json : json := JObj [
  ("config"%string, JObj [("num_wires"%string, JUint 136); ("num_routed_wires"%string, JUint 80); ("num_constants"%string, JUint 2); ("use_base_arithmetic_gate"%string, JBool true); ("security_bits"%string, JUint 100); ("num_challenges"%string, JUint 2); ("zero_knowledge"%string, JBool false); ("max_quotient_degree_factor"%string, JUint 8); ("fri_config"%string, JObj [("rate_bits"%string, JUint 3); ("cap_height"%string, JUint 4); ("proof_of_work_bits"%string, JUint 16); ("reduction_strategy"%string, JObj [("ConstantArityBits"%string, JArr [JUint 4; JUint 5])]); ("num_query_rounds"%string, JUint 28)])]);
  ("fri_params"%string, JObj [("config"%string, JObj [("rate_bits"%string, JUint 3); ("cap_height"%string, JUint 4); ("proof_of_work_bits"%string, JUint 16); ("reduction_strategy"%string, JObj [("ConstantArityBits"%string, JArr [JUint 4; JUint 5])]); ("num_query_rounds"%string, JUint 28)]); ("hiding"%string, JBool false); ("degree_bits"%string, JUint 13); ("reduction_arity_bits"%string, JArr [JUint 4; JUint 4])]);
  ("gates"%string, JArr [JStr "NoopGate"%string; JStr "PoseidonMdsGate(PhantomData<plonky2_field::goldilocks_field::GoldilocksField>)<WIDTH=12>"%string; JStr "PublicInputGate"%string; JStr "BaseSumGate { num_limbs: 63 } + Base: 2"%string; JStr "ReducingExtensionGate { num_coeffs: 33 }"%string; JStr "ReducingGate { num_coeffs: 44 }"%string; JStr "ArithmeticExtensionGate { num_ops: 10 }"%string; JStr "ArithmeticGate { num_ops: 20 }"%string; JStr "MulExtensionGate { num_ops: 13 }"%string; JStr "ExponentiationGate { num_power_bits: 67, _phantom: PhantomData<plonky2_field::goldilocks_field::GoldilocksField> }<D=2>"%string; JStr "RandomAccessGate { bits: 4, num_copies: 4, num_extra_constants: 2, _phantom: PhantomData<plonky2_field::goldilocks_field::GoldilocksField> }<D=2>"%string; JStr "CosetInterpolationGate { subgroup_bits: 4, degree: 6, barycentric_weights: [17293822565076172801, 18374686475376656385, 18446744069413535745, 281474976645120, 17592186044416, 18446744069414584577, 18446744000695107601, 18446744065119617025, 1152921504338411520, 72057594037927936, 18446744069415632897, 18446462594437939201, 18446726477228539905, 18446744069414584065, 68719476720, 4294967296], _phantom: PhantomData<plonky2_field::goldilocks_field::GoldilocksField> }<D=2>"%string; JStr "PoseidonGate(PhantomData<plonky2_field::goldilocks_field::GoldilocksField>)<WIDTH=12>"%string]);
  ("selectors_info"%string, JObj [("selector_indices"%string, JArr [JUint 0; JUint 0; JUint 0; JUint 0; JUint 0; JUint 0; JUint 1; JUint 1; JUint 1; JUint 1; JUint 2; JUint 2; JUint 3]); ("groups"%string, JArr [JObj [("start"%string, JUint 0); ("end"%string, JUint 6)]; JObj [("start"%string, JUint 6); ("end"%string, JUint 10)]; JObj [("start"%string, JUint 10); ("end"%string, JUint 12)]; JObj [("start"%string, JUint 12); ("end"%string, JUint 13)]])]);
  ("quotient_degree_factor"%string, JUint 8);
  ("num_gate_constraints"%string, JUint 123);
  ("num_constants"%string, JUint 6);
  ("num_public_inputs"%string, JUint 36);
  ("k_is"%string, JArr [JUint 1; JUint 7; JUint 49; JUint 343; JUint 2401; JUint 16807; JUint 117649; JUint 823543; JUint 5764801; JUint 40353607; JUint 282475249; JUint 1977326743; JUint 13841287201; JUint 96889010407; JUint 678223072849; JUint 4747561509943; JUint 33232930569601; JUint 232630513987207; JUint 1628413597910449; JUint 11398895185373143; JUint 79792266297612001; JUint 558545864083284007; JUint 3909821048582988049; JUint 8922003270666332022; JUint 7113790686420571191; JUint 12903046666114829695; JUint 16534350385145470581; JUint 5059988279530788141; JUint 16973173887300932666; JUint 8131752794619022736; JUint 1582037354089406189; JUint 11074261478625843323; JUint 3732854072722565977; JUint 7683234439643377518; JUint 16889152938674473984; JUint 7543606154233811962; JUint 15911754940807515092; JUint 701820169165099718; JUint 4912741184155698026; JUint 15942444219675301861; JUint 916645121239607101; JUint 6416515848677249707; JUint 8022122801911579307; JUint 814627405137302186; JUint 5702391835961115302; JUint 3023254712898638472; JUint 2716038920875884983; JUint 565528376716610560; JUint 3958698637016273920; JUint 9264146389699333119; JUint 9508792519651578870; JUint 11221315429317299127; JUint 4762231727562756605; JUint 14888878023524711914; JUint 11988425817600061793; JUint 10132004445542095267; JUint 15583798910550913906; JUint 16852872026783475737; JUint 7289639770996824233; JUint 14133990258148600989; JUint 6704211459967285318; JUint 10035992080941828584; JUint 14911712358349047125; JUint 12148266161370408270; JUint 11250886851934520606; JUint 4969231685883306958; JUint 16337877731768564385; JUint 3684679705892444769; JUint 7346013871832529062; JUint 14528608963998534792; JUint 9466542400916821939; JUint 10925564598174000610; JUint 2691975909559666986; JUint 397087297503084581; JUint 2779611082521592067; JUint 1010533508236560148; JUint 7073734557655921036; JUint 12622653764762278610; JUint 14571600075677612986; JUint 9767480182670369297]);
  ("num_partial_products"%string, JUint 9)].
(** testdata/step/verifier_only_circuit_data.json:1-21 *)
Definition step_key_json : json := JObj [
  ("constants_sigmas_cap"%string, JArr [JStr "4888357664296095718815758214440529393197762742365942012680717414927848556250"%string; JStr "2209889448564462812608523791037999221131777281114110816711594808561629780010"%string; JStr "4783027344594415431544036887584741450494432097097254847851160629277658732206"%string; JStr "4025442984048235715703510356530005233167222504995885323997325327626847831042"%string; JStr "7679520709262245108039166177805990311158829589366423240361001467027112647002"%string; JStr "259363173405031877757571220908459576335668352861939433815090635029846220068"%string; JStr "9880831542852849450717059869965520165948874814070335576566589765688426595600"%string; JStr "19609124362176622223995417422711340578268398995610264736162079735652393008400"%string; JStr "18373537388333609703859974831390403366607123416158043829042438107680621738551"%string; JStr "17536955898347982953188585924984008856280005516232467427210505109184726402603"%string; JStr "20695699955262630796033618899800264428111620406754391130684131882592523541095"%string; JStr "20425708078899059362884835312568041888084734960481059866199231046085670179583"%string; JStr "21697157774348170912700991744618658990139755973310165730160978582032237849079"%string; JStr "7191613656222346675951718107316884243893764070036349498195400843757810414364"%string; JStr "1499065111965288526081286015186615004571723160296680783059214594047760640474"%string; JStr "5981619154302533357157777495393724169720902362468159062002824290823005959648"%string]);
  ("circuit_digest"%string, JStr "9263530673647634796487329488695915977644330282170255272053971232639965244017"%string)].

(** the two circuits *)
Inductive testcase := Block | Step.
(** the files read by types/common_data.go:61-74 and by types/deserialize.go:110-126 *)
Definition data_json (t : testcase) : json := match t with Block => block_json | Step => step_json end.
Definition key_json (t : testcase) : json := match t with Block => block_key_json | Step => step_key_json end.
(** testdata/decode_block/common_circuit_data.json:94-175: the powers of 7 *)
Definition block_kis : list Z := [1; 7; 49; 343; 2401; 16807; 117649; 823543; 5764801; 40353607; 282475249; 1977326743; 13841287201; 96889010407; 678223072849; 4747561509943; 33232930569601; 232630513987207; 1628413597910449; 11398895185373143; 79792266297612001; 558545864083284007; 3909821048582988049; 8922003270666332022; 7113790686420571191; 12903046666114829695; 16534350385145470581; 5059988279530788141; 16973173887300932666; 8131752794619022736; 1582037354089406189; 11074261478625843323; 3732854072722565977; 7683234439643377518; 16889152938674473984; 7543606154233811962; 15911754940807515092; 701820169165099718; 4912741184155698026; 15942444219675301861; 916645121239607101; 6416515848677249707; 8022122801911579307; 814627405137302186; 5702391835961115302; 3023254712898638472; 2716038920875884983; 565528376716610560; 3958698637016273920; 9264146389699333119; 9508792519651578870; 11221315429317299127; 4762231727562756605; 14888878023524711914; 11988425817600061793; 10132004445542095267; 15583798910550913906; 16852872026783475737; 7289639770996824233; 14133990258148600989; 6704211459967285318; 10035992080941828584; 14911712358349047125; 12148266161370408270; 11250886851934520606; 4969231685883306958; 16337877731768564385; 3684679705892444769; 7346013871832529062; 14528608963998534792; 9466542400916821939; 10925564598174000610; 2691975909559666986; 397087297503084581; 2779611082521592067; 1010533508236560148; 7073734557655921036; 12622653764762278610; 14571600075677612986; 9767480182670369297].
(** testdata/decode_block/common_circuit_data.json:44-58 *)
Definition block_ids : list string := [
  "NoopGate"%string;
  "ConstantGate { num_consts: 2 }"%string;
  "PoseidonMdsGate(PhantomData<plonky2_field::goldilocks_field::GoldilocksField>)<WIDTH=12>"%string;
  "PublicInputGate"%string;
  "BaseSumGate { num_limbs: 63 } + Base: 2"%string;
  "ReducingExtensionGate { num_coeffs: 33 }"%string;
  "ReducingGate { num_coeffs: 44 }"%string;
  "ArithmeticExtensionGate { num_ops: 10 }"%string;
  "ArithmeticGate { num_ops: 20 }"%string;
  "MulExtensionGate { num_ops: 13 }"%string;
  "RandomAccessGate { bits: 4, num_copies: 4, num_extra_constants: 2, _phantom: PhantomData<plonky2_field::goldilocks_field::GoldilocksField> }<D=2>"%string;
  "CosetInterpolationGate { subgroup_bits: 4, degree: 6, barycentric_weights: [17293822565076172801, 18374686475376656385, 18446744069413535745, 281474976645120, 17592186044416, 18446744069414584577, 18446744000695107601, 18446744065119617025, 1152921504338411520, 72057594037927936, 18446744069415632897, 18446462594437939201, 18446726477228539905, 18446744069414584065, 68719476720, 4294967296], _phantom: PhantomData<plonky2_field::goldilocks_field::GoldilocksField> }<D=2>"%string;
  "PoseidonGate(PhantomData<plonky2_field::goldilocks_field::GoldilocksField>)<WIDTH=12>"%string].
(** testdata/step/common_circuit_data.json:98-179: the powers of 7 *)
Definition step_kis : list Z := [1; 7; 49; 343; 2401; 16807; 117649; 823543; 5764801; 40353607; 282475249; 1977326743; 13841287201; 96889010407; 678223072849; 4747561509943; 33232930569601; 232630513987207; 1628413597910449; 11398895185373143; 79792266297612001; 558545864083284007; 3909821048582988049; 8922003270666332022; 7113790686420571191; 12903046666114829695; 16534350385145470581; 5059988279530788141; 16973173887300932666; 8131752794619022736; 1582037354089406189; 11074261478625843323; 3732854072722565977; 7683234439643377518; 16889152938674473984; 7543606154233811962; 15911754940807515092; 701820169165099718; 4912741184155698026; 15942444219675301861; 916645121239607101; 6416515848677249707; 8022122801911579307; 814627405137302186; 5702391835961115302; 3023254712898638472; 2716038920875884983; 565528376716610560; 3958698637016273920; 9264146389699333119; 9508792519651578870; 11221315429317299127; 4762231727562756605; 14888878023524711914; 11988425817600061793; 10132004445542095267; 15583798910550913906; 16852872026783475737; 7289639770996824233; 14133990258148600989; 6704211459967285318; 10035992080941828584; 14911712358349047125; 12148266161370408270; 11250886851934520606; 4969231685883306958; 16337877731768564385; 3684679705892444769; 7346013871832529062; 14528608963998534792; 9466542400916821939; 10925564598174000610; 2691975909559666986; 397087297503084581; 2779611082521592067; 1010533508236560148; 7073734557655921036; 12622653764762278610; 14571600075677612986; 9767480182670369297].
(** testdata/step/common_circuit_data.json:44-58 *)
Definition step_ids : list string := [
  "NoopGate"%string;
  "PoseidonMdsGate(PhantomData<plonky2_field::goldilocks_field::GoldilocksField>)<WIDTH=12>"%string;
  "PublicInputGate"%string;
  "BaseSumGate { num_limbs: 63 } + Base: 2"%string;
  "ReducingExtensionGate { num_coeffs: 33 }"%string;
  "ReducingGate { num_coeffs: 44 }"%string;
  "ArithmeticExtensionGate { num_ops: 10 }"%string;
  "ArithmeticGate { num_ops: 20 }"%string;
  "MulExtensionGate { num_ops: 13 }"%string;
  "ExponentiationGate { num_power_bits: 67, _phantom: PhantomData<plonky2_field::goldilocks_field::GoldilocksField> }<D=2>"%string;
  "RandomAccessGate { bits: 4, num_copies: 4, num_extra_constants: 2, _phantom: PhantomData<plonky2_field::goldilocks_field::GoldilocksField> }<D=2>"%string;
  "CosetInterpolationGate { subgroup_bits: 4, degree: 6, barycentric_weights: [17293822565076172801, 18374686475376656385, 18446744069413535745, 281474976645120, 17592186044416, 18446744069414584577, 18446744000695107601, 18446744065119617025, 1152921504338411520, 72057594037927936, 18446744069415632897, 18446462594437939201, 18446726477228539905, 18446744069414584065, 68719476720, 4294967296], _phantom: PhantomData<plonky2_field::goldilocks_field::GoldilocksField> }<D=2>"%string;
  "PoseidonGate(PhantomData<plonky2_field::goldilocks_field::GoldilocksField>)<WIDTH=12>"%string].
(** the same configuration in both files (testdata/decode_block/common_circuit_data.json:2-23 and testdata/step/common_circuit_data.json:2-23) *)
Definition fri_config : FriConfig := mkFriConfig 3 4 16 28.
Definition config : CircuitConfig := mkCircuitConfig 136 80 2 true 100 2 false 8 fri_config.
(** what types/common_data.go:76-126 makes of the first file, *)
Definition block_data : CommonCircuitData :=
  mkCommonCircuitData config (mkFriParams fri_config false 12 [4; 4]%nat) block_ids
    (mkSelectorsInfo [0; 0; 0; 0; 0; 0; 0; 1; 1; 1; 1; 2; 2]%nat [(0, 7)%nat; (7, 11)%nat; (11, 13)%nat]) 12 8 123 5 0 block_kis 9.
(** and of the second *)
Definition step_data : CommonCircuitData :=
  mkCommonCircuitData config (mkFriParams fri_config false 13 [4; 4]%nat) step_ids
    (mkSelectorsInfo [0; 0; 0; 0; 0; 0; 1; 1; 1; 1; 2; 2; 3]%nat [(0, 6)%nat; (6, 10)%nat; (10, 12)%nat; (12, 13)%nat]) 13 8 123 6 36 step_kis 9.
Definition data (t : testcase) : CommonCircuitData := match t with Block => block_data | Step => step_data end.
(** the barycentric weights of CosetInterpolationGate, reduced: two of those in the files exceed p
    (plonk/gates/coset_interpolation_gate.go:41-48) *)
Definition weights : list Z := [17293822565076172801; 18374686475376656385; 18446744069413535745; 281474976645120; 17592186044416; 256; 18446744000695107601; 18446744065119617025; 1152921504338411520; 72057594037927936; 1048576; 18446462594437939201; 18446726477228539905; 18446744069414584065; 68719476720; 4294967296].
(** the gates of the identifiers (plonk/gates/gates.go:37-54) *)
Definition block_gates : list Gate := [NoopGate; ConstantGate 2; PoseidonMdsGate; PublicInputGate; BaseSumGate 63 2; ReducingExtensionGate 33; ReducingGate 44; ArithmeticExtensionGate 10; ArithmeticGate 20; MultiplicationExtensionGate 13; RandomAccessGate 4 4 2; CosetInterpolationGate 4 6 weights; PoseidonGate].
Definition step_gates : list Gate := [NoopGate; PoseidonMdsGate; PublicInputGate; BaseSumGate 63 2; ReducingExtensionGate 33; ReducingGate 44; ArithmeticExtensionGate 10; ArithmeticGate 20; MultiplicationExtensionGate 13; ExponentiationGate 67; RandomAccessGate 4 4 2; CosetInterpolationGate 4 6 weights; PoseidonGate].
Definition gates_of (t : testcase) : list Gate := match t with Block => block_gates | Step => step_gates end.
(** what variables/deserialize.go:149-156 makes of the keys *)
Definition block_key : VerifierOnlyCircuitData := mkVerifierOnlyCircuitData [1499622638644728537774239858053278546400257982434845489329927574295172033326; 2930852415723089264561622935088329191815636786066772202039928107654951266023; 14464526654918087476596183134411486973966295253353738267325575394304709517161; 18983137502540745159803953284357786408225887846069384394220291955925143226141; 1386895482273961356932873002155159178542488359092693049720219479086930861707; 14771237880407068338879830535366644743003305760875598132537125639168034999022; 19702788661528474550894036146582137462836271070153286539426392895353557950694; 15334727368281990897779779337943379898609200739305205677598255362701124565320; 21691768748620820719274018448050849816536829760110881140528389629789448704790; 15262009449532190852183220678787716636953257578372619913911054925901367503449; 18166082909492900359627895435428332272663141560067836935272838076830554017630; 10686995103794494099325675278866631156892436169286799401423857508483307145846; 7660138004813546044706396059680360544539623731113711012915164533145284575301; 1616448650742704848585620443874003913130079345238283349517269437117477195625; 5734773590975050772666682899969130545487941904460247131732227238307211841652; 11959183492303708131395376843823862107323459381741154704909455973421596288592] 11532502846882484230992726008257788785937565673229400981185786126842727172973.
Definition step_key : VerifierOnlyCircuitData := mkVerifierOnlyCircuitData [4888357664296095718815758214440529393197762742365942012680717414927848556250; 2209889448564462812608523791037999221131777281114110816711594808561629780010; 4783027344594415431544036887584741450494432097097254847851160629277658732206; 4025442984048235715703510356530005233167222504995885323997325327626847831042; 7679520709262245108039166177805990311158829589366423240361001467027112647002; 259363173405031877757571220908459576335668352861939433815090635029846220068; 9880831542852849450717059869965520165948874814070335576566589765688426595600; 19609124362176622223995417422711340578268398995610264736162079735652393008400; 18373537388333609703859974831390403366607123416158043829042438107680621738551; 17536955898347982953188585924984008856280005516232467427210505109184726402603; 20695699955262630796033618899800264428111620406754391130684131882592523541095; 20425708078899059362884835312568041888084734960481059866199231046085670179583; 21697157774348170912700991744618658990139755973310165730160978582032237849079; 7191613656222346675951718107316884243893764070036349498195400843757810414364; 1499065111965288526081286015186615004571723160296680783059214594047760640474; 5981619154302533357157777495393724169720902362468159062002824290823005959648] 9263530673647634796487329488695915977644330282170255272053971232639965244017.
Definition key (t : testcase) : VerifierOnlyCircuitData := match t with Block => block_key | Step => step_key end.
