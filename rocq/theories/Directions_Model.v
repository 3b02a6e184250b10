(** The directions of the sweep. Numbers of the tables are the decimal numbers of the source instead of their nearest floating
    point numbers; angles and lengths are real numbers. *)
From Coq Require Import List ZArith QArith Reals.
Import ListNotations.
Local Open Scope Q_scope.

Definition vec3 := (Q * Q * Q)%type.

(** src/sweep/direction/healpix.rs:1-18 [DIRECTION_BINS_16]. *)
Definition bins_16 : list vec3 := [
  (((-887773) # 1000000), ((580969) # 10000000), ((-456601) # 1000000));
  (((-674667) # 1000000), ((-714656) # 1000000), ((-18464) # 100000));
  (((-927613) # 100000000), ((998084) # 1000000), ((611669) # 10000000));
  (((-175597) # 1000000), ((-21699) # 100000), ((-960251) # 1000000));
  (((-175636) # 1000000), ((-797369) # 1000000), ((577368) # 1000000));
  (((-763412) # 1000000), ((626161) # 1000000), ((158509) # 1000000));
  (((567715) # 1000000), ((614688) # 1000000), ((547594) # 1000000));
  (((-807106) # 1000000), ((-195955) # 1000000), ((55694) # 100000));
  (((661621) # 1000000), ((-224206) # 1000000), ((-715535) # 1000000));
  (((65646) # 100000), ((-726129) # 1000000), ((204444) # 1000000));
  (((-254572) # 1000000), ((395254) # 1000000), ((882591) # 1000000));
  (((-231413) # 1000000), ((626322) # 1000000), ((-744425) # 1000000));
  (((994725) # 1000000), ((418712) # 10000000), ((936475) # 10000000));
  (((116228) # 1000000), ((-898117) # 1000000), ((-42412) # 100000));
  (((605804) # 1000000), ((619106) # 1000000), ((-499709) # 1000000));
  (((376898) # 1000000), ((-20616) # 100000), ((90302) # 100000))].

(** src/sweep/direction/healpix.rs:20-42 [DIRECTION_BINS_21]. *)
Definition bins_21 : list vec3 := [
  (((-21812) # 100000), ((953415) # 1000000), ((208382) # 1000000));
  (((632711) # 1000000), ((-706968) # 1000000), ((316026) # 1000000));
  (((877577) # 1000000), ((-345234) # 1000000), ((-332675) # 1000000));
  (((494404) # 1000000), ((644753) # 10000000), ((-866838) # 1000000));
  (((-472393) # 1000000), ((-82019) # 100000), ((-322697) # 1000000));
  (((-826035) # 1000000), ((-122325) # 1000000), ((-550184) # 1000000));
  (((5187) # 10000), ((804055) # 1000000), ((290595) # 1000000));
  (((-89183) # 1000000), ((-444281) # 1000000), ((-891437) # 1000000));
  (((-459981) # 1000000), ((-27435) # 100000), ((844482) # 1000000));
  (((-852982) # 1000000), ((-469298) # 1000000), ((228432) # 1000000));
  (((290946) # 1000000), ((-352099) # 1000000), ((889593) # 1000000));
  (((-475995) # 1000000), ((476672) # 1000000), ((739062) # 1000000));
  (((894331) # 1000000), ((539323) # 10000000), ((444144) # 1000000));
  (((-136318) # 1000000), ((-907742) # 1000000), ((396764) # 1000000));
  (((-247538) # 1000000), ((321248) # 1000000), ((-91407) # 100000));
  (((-625228) # 1000000), ((686856) # 1000000), ((-370566) # 1000000));
  (((857566) # 1000000), ((434469) # 1000000), ((-275348) # 1000000));
  (((207314) # 1000000), ((836646) # 1000000), ((-506996) # 1000000));
  (((310263) # 1000000), ((-870287) # 1000000), ((-382542) # 1000000));
  (((-943535) # 1000000), ((27867) # 100000), ((179119) # 1000000));
  (((263497) # 1000000), ((402335) # 1000000), ((876753) # 1000000))].

(** src/sweep/direction/healpix.rs:44-77 [DIRECTION_BINS_32]. *)
Definition bins_32 : list vec3 := [
  (((-835689) # 1000000), ((395278) # 1000000), ((-381288) # 1000000));
  (((-341951) # 1000000), ((-360379) # 1000000), ((867869) # 1000000));
  (((-335975) # 1000000), ((837247) # 1000000), ((431438) # 1000000));
  (((-19292) # 100000), ((-976372) # 1000000), ((-973651) # 10000000));
  (((-355858) # 1000000), ((491008) # 1000000), ((-795158) # 1000000));
  (((-692156) # 1000000), ((-644782) # 1000000), ((-324309) # 1000000));
  (((835689) # 1000000), ((-395278) # 1000000), ((381288) # 1000000));
  (((988147) # 1000000), ((139838) # 1000000), ((633272) # 10000000));
  (((447964) # 1000000), ((-871712) # 1000000), ((198611) # 1000000));
  (((198232) # 1000000), ((651171) # 1000000), ((732585) # 1000000));
  (((-827863) # 1000000), ((-838637) # 10000000), ((554626) # 1000000));
  (((103734) # 1000000), ((845606) # 1000000), ((-523632) # 1000000));
  (((439369) # 1000000), ((-345526) # 1000000), ((-829196) # 1000000));
  (((-681115) # 1000000), ((-660351) # 1000000), ((316259) # 1000000));
  (((19292) # 100000), ((976372) # 1000000), ((973651) # 10000000));
  (((-447964) # 1000000), ((871712) # 1000000), ((-198611) # 1000000));
  (((-988147) # 1000000), ((-139838) # 1000000), ((-633272) # 10000000));
  (((689709) # 1000000), ((134165) # 1000000), ((711548) # 1000000));
  (((116397) # 1000000), ((703386) # 10000000), ((990709) # 1000000));
  (((-439369) # 1000000), ((345526) # 1000000), ((829196) # 1000000));
  (((-116397) # 1000000), ((-703386) # 10000000), ((-990709) # 1000000));
  (((827862) # 1000000), ((838638) # 10000000), ((-554627) # 1000000));
  (((341951) # 1000000), ((360379) # 1000000), ((-867869) # 1000000));
  (((692156) # 1000000), ((644782) # 1000000), ((324309) # 1000000));
  (((681115) # 1000000), ((660351) # 1000000), ((-316259) # 1000000));
  (((-83874) # 100000), ((481828) # 1000000), ((253685) # 1000000));
  (((83874) # 100000), ((-481828) # 1000000), ((-253685) # 1000000));
  (((355858) # 1000000), ((-491008) # 1000000), ((795158) # 1000000));
  (((-103734) # 1000000), ((-845606) # 1000000), ((523632) # 1000000));
  (((-689709) # 1000000), ((-134165) # 1000000), ((-711548) # 1000000));
  (((335975) # 1000000), ((-837247) # 1000000), ((-431438) # 1000000));
  (((-198232) # 1000000), ((-651171) # 1000000), ((-732585) # 1000000))].

(** src/sweep/direction/healpix.rs:79-144 [DIRECTION_BINS_64]. *)
Definition bins_64 : list vec3 := [
  (((247906) # 1000000), ((83552) # 100000), ((-490355) # 1000000));
  (((876349) # 1000000), ((-233808) # 1000000), ((421125) # 1000000));
  (((919741) # 1000000), ((243178) # 1000000), ((-308126) # 1000000));
  (((-371525) # 1000000), ((-193571) # 1000000), ((-90802) # 100000));
  (((-630642) # 10000000), ((-567382) # 1000000), ((821037) # 1000000));
  (((-807847) # 1000000), ((374609) # 1000000), ((-45503) # 100000));
  (((184321) # 1000000), ((923217) # 1000000), ((337189) # 1000000));
  (((952302) # 10000000), ((-27616) # 100000), ((-956382) # 1000000));
  (((219173) # 1000000), ((-243289) # 1000000), ((944867) # 1000000));
  (((-788434) # 1000000), ((-222736) # 1000000), ((573377) # 1000000));
  (((552743) # 1000000), ((-420977) # 1000000), ((719203) # 1000000));
  (((-317057) # 1000000), ((944401) # 1000000), ((87068) # 1000000));
  (((577184) # 1000000), ((44968) # 100000), ((68165) # 100000));
  (((242177) # 1000000), ((-91363) # 100000), ((-326545) # 1000000));
  (((-529157) # 1000000), ((227583) # 1000000), ((-817435) # 1000000));
  (((-591365) # 1000000), ((-526061) # 1000000), ((-611186) # 1000000));
  (((706512) # 1000000), ((15162) # 100000), ((-691269) # 1000000));
  (((-476095) # 10000000), ((607682) # 1000000), ((-792752) # 1000000));
  (((652221) # 1000000), ((-59794) # 100000), ((-465915) # 1000000));
  (((-767878) # 1000000), ((-114393) # 1000000), ((-6303) # 10000));
  (((-823596) # 1000000), ((-529049) # 1000000), ((204442) # 1000000));
  (((-214378) # 1000000), ((894893) # 1000000), ((-391419) # 1000000));
  (((-458646) # 1000000), ((620835) # 1000000), ((-635773) # 1000000));
  (((881334) # 1000000), ((-20698) # 100000), ((-424747) # 1000000));
  (((-500831) # 1000000), ((-846181) # 1000000), ((182059) # 1000000));
  (((-108499) # 1000000), ((202988) # 1000000), ((-973151) # 1000000));
  (((-637156) # 1000000), ((741844) # 1000000), ((-209047) # 1000000));
  (((-175669) # 1000000), ((457971) # 1000000), ((871437) # 1000000));
  (((284433) # 1000000), ((-747364) # 1000000), ((600453) # 1000000));
  (((-413263) # 1000000), ((-303343) # 1000000), ((858602) # 1000000));
  (((184638) # 1000000), ((674164) # 1000000), ((71513) # 100000));
  (((-123414) # 1000000), ((-992099) # 1000000), ((-225655) # 10000000));
  (((-979622) # 1000000), ((-974461) # 10000000), ((175628) # 1000000));
  (((63973) # 100000), ((853519) # 100000000), ((768553) # 1000000));
  (((-143884) # 1000000), ((174948) # 10000000), ((98944) # 100000));
  (((319166) # 1000000), ((103484) # 1000000), ((-942032) # 1000000));
  (((-225595) # 1000000), ((827522) # 1000000), ((514114) # 1000000));
  (((856931) # 1000000), ((513406) # 1000000), ((45652) # 1000000));
  (((-860652) # 1000000), ((250908) # 1000000), ((443084) # 1000000));
  (((675841) # 1000000), ((-654983) # 1000000), ((337988) # 1000000));
  (((-873512) # 1000000), ((-427299) # 1000000), ((-233222) # 1000000));
  (((877934) # 1000000), ((246874) # 1000000), ((410226) # 1000000));
  (((269351) # 1000000), ((-944457) # 1000000), ((188287) # 1000000));
  (((-671628) # 1000000), ((698724) # 1000000), ((246373) # 1000000));
  (((26272) # 100000), ((-662226) # 1000000), ((-701737) # 1000000));
  (((897189) # 1000000), ((-440642) # 1000000), ((-297806) # 10000000));
  (((-581728) # 1000000), ((-778507) # 1000000), ((-235626) # 1000000));
  (((-177764) # 1000000), ((-595123) # 1000000), ((-783728) # 1000000));
  (((-917871) # 1000000), ((396715) # 1000000), ((114431) # 10000000));
  (((-194526) # 1000000), ((-870221) # 1000000), ((-452631) # 1000000));
  (((591933) # 1000000), ((725511) # 1000000), ((351068) # 1000000));
  (((256355) # 1000000), ((235508) # 1000000), ((937453) # 1000000));
  (((59947) # 100000), ((-796376) # 1000000), ((-801305) # 10000000));
  (((54924) # 100000), ((-285299) # 1000000), ((-785455) # 1000000));
  (((388608) # 1000000), ((502286) # 1000000), ((-772459) # 1000000));
  (((101411) # 1000000), ((991624) # 1000000), ((-799818) # 10000000));
  (((-132737) # 1000000), ((-877458) # 1000000), ((460922) # 1000000));
  (((-550363) # 1000000), ((541364) # 1000000), ((63563) # 100000));
  (((-968848) # 1000000), ((118342) # 10000000), ((-247374) # 1000000));
  (((-574506) # 1000000), ((128754) # 1000000), ((80831) # 100000));
  (((99903) # 100000), ((-333864) # 100000000), ((439138) # 10000000));
  (((530141) # 1000000), ((843995) # 1000000), ((-813794) # 10000000));
  (((674196) # 1000000), ((600878) # 1000000), ((-429424) # 1000000));
  (((-520582) # 1000000), ((-627268) # 1000000), ((579249) # 1000000))].

(** src/sweep/direction/healpix.rs:146-231 [DIRECTION_BINS_84]. *)
Definition bins_84 : list vec3 := [
  (((-350007) # 10000000), ((880555) # 1000000), ((-47265) # 100000));
  (((739861) # 1000000), ((-620782) # 1000000), ((259297) # 1000000));
  (((918057) # 1000000), ((137069) # 1000000), ((-372001) # 1000000));
  (((-143627) # 10000000), ((-493037) # 10000000), ((-998681) # 1000000));
  (((-231169) # 1000000), ((-443199) # 1000000), ((866104) # 1000000));
  (((-771831) # 1000000), ((56671) # 100000), ((-2883) # 10000));
  (((424294) # 10000000), ((989419) # 1000000), ((138741) # 1000000));
  (((310936) # 1000000), ((-288518) # 1000000), ((-905581) # 1000000));
  (((80855) # 1000000), ((-215628) # 1000000), ((973122) # 1000000));
  (((-858908) # 1000000), ((-358953) # 1000000), ((365281) # 1000000));
  (((381088) # 1000000), ((-407118) # 1000000), ((830077) # 1000000));
  (((-31503) # 100000), ((905885) # 1000000), ((283069) # 1000000));
  (((9235) # 10000), ((-253999) # 1000000), ((287457) # 1000000));
  (((-370429) # 10000000), ((-800832) # 1000000), ((-597742) # 1000000));
  (((-32801) # 100000), ((232215) # 1000000), ((-915689) # 1000000));
  (((-665645) # 1000000), ((-354557) # 1000000), ((-656663) # 1000000));
  (((744313) # 1000000), ((484705) # 1000000), ((-459412) # 1000000));
  (((159569) # 1000000), ((660581) # 1000000), ((-733601) # 1000000));
  (((591782) # 1000000), ((-796509) # 1000000), ((-123966) # 1000000));
  (((-844399) # 1000000), ((232951) # 1000000), ((-482415) # 1000000));
  (((15917) # 100000), ((194812) # 1000000), ((96784) # 100000));
  (((247436) # 1000000), ((949373) # 1000000), ((-193565) # 1000000));
  (((-582381) # 1000000), ((460002) # 1000000), ((-670246) # 1000000));
  (((645869) # 1000000), ((-613889) # 1000000), ((-453866) # 1000000));
  (((-516269) # 1000000), ((-853742) # 1000000), ((-677514) # 10000000));
  (((6325) # 100000), ((341056) # 1000000), ((-937913) # 1000000));
  (((-580505) # 1000000), ((812527) # 1000000), ((-530505) # 10000000));
  (((-185312) # 1000000), ((428899) # 1000000), ((884141) # 1000000));
  (((78506) # 1000000), ((-65055) # 100000), ((755395) # 1000000));
  (((-512406) # 1000000), ((-179724) # 1000000), ((839726) # 1000000));
  (((174544) # 1000000), ((582176) # 1000000), ((794107) # 1000000));
  (((-228054) # 1000000), ((-955551) # 1000000), ((186854) # 1000000));
  (((-969018) # 1000000), ((-24507) # 100000), ((-307468) # 10000000));
  (((792349) # 1000000), ((-724308) # 100000000), ((610025) # 1000000));
  (((-216691) # 1000000), ((363919) # 10000000), ((975562) # 1000000));
  (((383166) # 1000000), ((921727) # 10000000), ((-919069) # 1000000));
  (((-170157) # 1000000), ((76462) # 100000), ((621614) # 1000000));
  (((654046) # 1000000), ((740711) # 1000000), ((-153528) # 1000000));
  (((-966434) # 1000000), ((504854) # 10000000), ((251906) # 1000000));
  (((701621) # 1000000), ((-385141) # 1000000), ((599495) # 1000000));
  (((-801386) # 1000000), ((-595309) # 1000000), ((581941) # 10000000));
  (((763442) # 1000000), ((610264) # 1000000), ((211503) # 1000000));
  (((426782) # 1000000), ((-880317) # 1000000), ((207123) # 1000000));
  (((-64751) # 100000), ((695547) # 1000000), ((31136) # 100000));
  (((33047) # 100000), ((-644294) # 1000000), ((-689692) # 1000000));
  (((871103) # 1000000), ((-262806) # 1000000), ((-414864) # 1000000));
  (((-466664) # 1000000), ((-766744) # 1000000), ((-440827) # 1000000));
  (((-355637) # 1000000), ((-572438) # 1000000), ((-738808) # 1000000));
  (((-878332) # 1000000), ((469864) # 1000000), ((880956) # 10000000));
  (((-154671) # 1000000), ((-95487) # 100000), ((-253576) # 1000000));
  (((44948) # 100000), ((878173) # 1000000), ((163642) # 1000000));
  (((489946) # 1000000), ((-413798) # 10000000), ((87077) # 100000));
  (((286335) # 1000000), ((-886196) # 1000000), ((-364238) # 1000000));
  (((63132) # 100000), ((-29907) # 100000), ((-715536) # 1000000));
  (((487599) # 1000000), ((434987) # 1000000), ((-75699) # 100000));
  (((-224972) # 1000000), ((963962) # 1000000), ((-142003) # 1000000));
  (((-271644) # 1000000), ((-763058) # 1000000), ((586475) # 1000000));
  (((-499843) # 1000000), ((578159) # 1000000), ((644895) # 1000000));
  (((-97839) # 100000), ((163911) # 1000000), ((-12604) # 100000));
  (((-796757) # 1000000), ((-542859) # 10000000), ((601856) # 1000000));
  (((956315) # 1000000), ((165336) # 1000000), ((241091) # 1000000));
  (((431617) # 1000000), ((764488) # 1000000), ((-478816) # 1000000));
  (((499165) # 1000000), ((341303) # 1000000), ((796459) # 1000000));
  (((-597387) # 1000000), ((-496446) # 1000000), ((629818) # 1000000));
  (((-442879) # 1000000), ((777265) # 1000000), ((-446897) # 1000000));
  (((868085) # 1000000), ((-488662) # 1000000), ((-87393) # 1000000));
  (((-898665) # 1000000), ((-155478) # 1000000), ((-410155) # 1000000));
  (((797905) # 10000000), ((-901932) # 1000000), ((424443) # 1000000));
  (((914681) # 1000000), ((396488) # 1000000), ((-784603) # 10000000));
  (((713581) # 1000000), ((898074) # 10000000), ((-694792) # 1000000));
  (((772221) # 1000000), ((367449) # 1000000), ((51832) # 100000));
  (((167238) # 1000000), ((862295) # 1000000), ((477995) # 1000000));
  (((-171808) # 10000000), ((-476111) # 1000000), ((-879218) # 1000000));
  (((-359214) # 1000000), ((-196189) # 1000000), ((-912401) # 1000000));
  (((-774604) # 1000000), ((-544069) # 1000000), ((-322457) # 1000000));
  (((135948) # 1000000), ((-990666) # 1000000), ((-991929) # 100000000));
  (((439578) # 1000000), ((-705422) # 1000000), ((556013) # 1000000));
  (((994526) # 1000000), ((-861875) # 10000000), ((-590725) # 10000000));
  (((-230688) # 1000000), ((609802) # 1000000), ((-758238) # 1000000));
  (((-569105) # 1000000), ((-752199) # 1000000), ((332139) # 1000000));
  (((-649245) # 1000000), ((375767) # 10000000), ((-75965) # 100000));
  (((-553892) # 1000000), ((225701) # 1000000), ((801413) # 1000000));
  (((-808676) # 1000000), ((342276) # 1000000), ((478425) # 1000000));
  (((504395) # 1000000), ((676467) # 1000000), ((536635) # 1000000))].

(** src/sweep/direction/mod.rs:58-75 [Directions::from_num] in space; [None] is [unimplemented!]. *)
Definition from_num3 (num : nat) : option (list vec3) :=
  match num with
  | 1%nat => Some [(1, 0, 0)]
  | 16%nat => Some bins_16
  | 21%nat => Some bins_21
  | 32%nat => Some bins_32
  | 64%nat => Some bins_64
  | 84%nat => Some bins_84
  | _ => None
  end.

Local Open Scope R_scope.
(** src/sweep/direction/mod.rs:42-56 [Directions::from_num] in the plane. *)
Definition direction2 (num i : nat) : R * R :=
  let fraction := 0.125 + INR i / INR num in
  (cos (fraction * 2.0 * PI), sin (fraction * 2.0 * PI)).
Definition from_num2 (num : nat) : list (R * R) := map (direction2 num) (seq 0 num).

(** src/sweep/direction/mod.rs:97-109: explicit directions are normalized. [None]: the vector has length zero, the result is not a
    number. *)
Definition norm3 (v : R * R * R) : R := let '(x, y, z) := v in sqrt (x * x + y * y + z * z).
Definition explicit (v : R * R * R) : option (R * R * R) :=
  let '(x, y, z) := v in
  if Req_EM_T (norm3 v) 0 then None else Some (x / norm3 v, y / norm3 v, z / norm3 v).
