(** The tables of [/repo/src/arepo_postprocess/bpass.rs], with the decimal numbers as they
    are written there instead of the nearest floating point numbers. [e m n] is
    m * 10^n. *)
From Coq Require Import List ZArith QArith.
Import ListNotations.
Local Open Scope Q_scope.

Definition e (m n : Z) : Q := Qred (inject_Z m * inject_Z 10 ^ n).

(** [BPASS_AGE_BINS], bpass.rs 61-113, in years. *)
Definition age_bins : list Q := [
  e 1 6; e 125892541 (-2); e 158489319 (-2); e 199526231 (-2); e 251188643 (-2);
  e 316227766 (-2); e 398107171 (-2); e 501187234 (-2); e 630957344 (-2); e 794328235 (-2);
  e 1 7; e 125892541 (-1); e 158489319 (-1); e 199526231 (-1); e 251188643 (-1);
  e 316227766 (-1); e 398107171 (-1); e 501187234 (-1); e 630957344 (-1); e 794328235 (-1);
  e 1 8; e 125892541 0; e 158489319 0; e 199526231 0; e 251188643 0; e 316227766 0;
  e 398107171 0; e 501187234 0; e 630957344 0; e 794328235 0; e 1 9; e 125892541 1;
  e 158489319 1; e 199526231 1; e 251188643 1; e 316227766 1; e 398107171 1; e 501187234 1;
  e 630957344 1; e 794328235 1; e 1 10; e 125892541 2; e 158489319 2; e 199526231 2;
  e 251188643 2; e 316227766 2; e 398107171 2; e 501187234 2; e 630957344 2; e 794328235 2;
  e 1 11].

(** [BPASS_METALLICITY_BINS], bpass.rs 115-118. *)
Definition metallicity_bins : list Q := [
  e 1 (-5); e 1 (-4); e 1 (-3); e 2 (-3); e 3 (-3); e 4 (-3); e 6 (-3); e 8 (-3); e 1 (-2);
  e 14 (-3); e 2 (-2); e 3 (-2); e 4 (-2)].

(** [BPASS_TABLE], bpass.rs 120-886: one row for each age, one column for each
    metallicity. *)
Definition table : list (list Q) := [
  [e 42211975 39; e 411037266 38; e 400498367 38; e 40482502 39; e 403299634 38; e 401878889 38;
   e 39953913 39; e 391022835 38; e 385809308 38; e 366317441 38; e 356523816 38;
   e 341850883 38; e 334144693 38];
  [e 471532649 38; e 461303242 38; e 469053909 38; e 465785492 38; e 455349796 38;
   e 447576653 38; e 433997913 38; e 418178708 38; e 40489065 39; e 363717334 38;
   e 342128803 38; e 302583642 38; e 286809438 38];
  [e 503932484 38; e 502587803 38; e 50291457 39; e 490438712 38; e 473979763 38; e 46342763 39;
   e 444168652 38; e 426563559 38; e 403772954 38; e 353628832 38; e 324544345 38;
   e 271690607 38; e 241658159 38];
  [e 568408989 38; e 562260343 38; e 529877273 38; e 509791117 38; e 487241936 38;
   e 468992976 38; e 441623005 38; e 414455405 38; e 376764225 38; e 328340957 38;
   e 285948739 38; e 214944739 38; e 180216454 38];
  [e 641617828 38; e 619966678 38; e 537002134 38; e 503664547 38; e 468593767 38;
   e 437378019 38; e 394872536 38; e 353350359 38; e 305127468 38; e 254284498 38;
   e 216874301 38; e 161456943 38; e 140691116 38];
  [e 615016125 38; e 568894406 38; e 493842423 38; e 453376813 38; e 416668159 38;
   e 383133624 38; e 333895114 38; e 297296731 38; e 258550755 38; e 202472067 38;
   e 189161127 38; e 134468187 38; e 118730797 38];
  [e 46170971 39; e 421860019 38; e 339392286 38; e 320504403 38; e 289853264 38;
   e 264461654 38; e 228410554 38; e 207392616 38; e 179417724 38; e 140071755 38;
   e 123997361 38; e 800472755 37; e 65215303 38];
  [e 35194681 39; e 307958288 38; e 217694085 38; e 18835053 39; e 177991761 38; e 167236691 38;
   e 128077827 38; e 111477113 38; e 94941624 38; e 754103983 37; e 669250874 37;
   e 444995022 37; e 34328095 38];
  [e 243980538 38; e 203603461 38; e 126748932 38; e 104268938 38; e 919249728 37;
   e 880358864 37; e 654030793 37; e 587317024 37; e 491396938 37; e 388025776 37;
   e 320004386 37; e 228463891 37; e 190397743 37];
  [e 149216673 38; e 120675998 38; e 741644827 37; e 568398165 37; e 472498999 37;
   e 422958317 37; e 294744274 37; e 266931611 37; e 240242705 37; e 206304292 37;
   e 195545602 37; e 137056891 37; e 11282158 38];
  [e 797926599 37; e 66228539 38; e 406765326 37; e 316070647 37; e 264032209 37;
   e 222389625 37; e 156121376 37; e 143346521 37; e 134038299 37; e 113779828 37;
   e 102595726 37; e 842882568 36; e 71538464 37];
  [e 344747799 37; e 301016838 37; e 215194071 37; e 174071204 37; e 147289599 37;
   e 122616254 37; e 855575552 36; e 792073846 36; e 750295387 36; e 657238966 36;
   e 596598615 36; e 471049791 36; e 44451985 37];
  [e 143656431 37; e 106382874 37; e 727078135 36; e 748126778 36; e 746274043 36;
   e 69128061 37; e 510760313 36; e 43422017 37; e 40962147 37; e 383611896 36; e 32470043 37;
   e 293562325 36; e 268246493 36];
  [e 535868972 36; e 4019842 38; e 400903516 36; e 398680699 36; e 372247304 36; e 371294029 36;
   e 26025453 37; e 255303518 36; e 24249424 37; e 21392201 37; e 205130766 36; e 213739519 36;
   e 176862616 36];
  [e 13693226 37; e 110361636 36; e 180116319 36; e 177780725 36; e 168691328 36;
   e 160071347 36; e 184877419 36; e 156624059 36; e 1547464 38; e 146823261 36; e 121395508 36;
   e 115719324 36; e 136296583 36];
  [e 667152621 35; e 730339884 35; e 138155905 36; e 133508951 36; e 121494566 36;
   e 113977391 36; e 112566663 36; e 110005446 36; e 101182794 36; e 913568389 35;
   e 960415804 35; e 903594703 35; e 8606934 37];
  [e 310744807 35; e 51966136 36; e 925227573 35; e 927007195 35; e 845597432 35;
   e 791328774 35; e 746298467 35; e 746872339 35; e 74323962 36; e 772094748 35;
   e 672912324 35; e 63751221 36; e 558040527 35];
  [e 200429333 35; e 392430557 35; e 71672012 36; e 74132903 36; e 609547907 35; e 62634761 36;
   e 636338617 35; e 581174191 35; e 56667591 36; e 455998269 35; e 492656943 35;
   e 437972655 35; e 440449696 35];
  [e 121286082 35; e 256007095 35; e 515926471 35; e 467239833 35; e 536252992 35;
   e 413193033 35; e 39353618 36; e 398222778 35; e 335963845 35; e 417278149 35;
   e 451298955 35; e 325689392 35; e 345316826 35];
  [e 74776397 35; e 178388785 35; e 331821548 35; e 344588055 35; e 330695898 35;
   e 258686516 35; e 265124181 35; e 300544385 35; e 216713642 35; e 251872775 35;
   e 276536724 35; e 264588101 35; e 241363779 35];
  [e 462724383 34; e 12403712 36; e 22764324 36; e 23564585 36; e 285375102 35; e 265318664 35;
   e 239084134 35; e 182840119 35; e 172266723 35; e 199992558 35; e 182586719 35;
   e 164877034 35; e 1516826 37];
  [e 319897702 34; e 829132268 34; e 149243526 35; e 147381267 35; e 19859644 36;
   e 156797933 35; e 127773892 35; e 181809748 35; e 128408206 35; e 138635845 35;
   e 119748191 35; e 113057919 35; e 114319363 35];
  [e 142571004 34; e 420043221 34; e 694480142 34; e 78914511 35; e 938480262 34;
   e 920568503 34; e 962880153 34; e 997219965 34; e 763609719 34; e 833741533 34;
   e 946318661 34; e 683023453 34; e 75149486 35];
  [e 116516529 34; e 184580331 34; e 431199597 34; e 488973172 34; e 633320593 34;
   e 702891564 34; e 620859297 34; e 610980136 34; e 445253158 34; e 429615937 34;
   e 449995937 34; e 296952821 34; e 342921902 34];
  [e 941626206 33; e 109975181 34; e 207738399 34; e 35870898 35; e 347788716 34;
   e 454769168 34; e 422271497 34; e 402883431 34; e 270802139 34; e 315433777 34;
   e 419489196 34; e 221357118 34; e 260037719 34];
  [e 457040673 33; e 485833225 33; e 142970962 34; e 187696509 34; e 240324158 34;
   e 259724294 34; e 280448625 34; e 260383243 34; e 154649774 34; e 172422815 34; e 1807505 36;
   e 131671863 34; e 129669986 34];
  [e 267153281 33; e 445239254 33; e 820671059 33; e 110776758 34; e 164765004 34;
   e 209655149 34; e 187523511 34; e 152349528 34; e 873627114 33; e 559539778 33;
   e 584606091 33; e 441348797 33; e 53303449 34];
  [e 154298547 33; e 187802909 33; e 446365771 33; e 498133224 33; e 455269293 33;
   e 986769742 33; e 756289828 33; e 684900983 33; e 418965808 33; e 398065667 33;
   e 480990294 33; e 397201422 33; e 440138316 33];
  [e 905557685 32; e 12258676 34; e 210709695 33; e 251112576 33; e 280410227 33;
   e 573480658 33; e 589214015 33; e 461620366 33; e 259988749 33; e 205468002 33;
   e 267563553 33; e 197659096 33; e 199002155 33];
  [e 636116589 32; e 765198671 32; e 151110467 33; e 18261886 34; e 197049051 33;
   e 286279253 33; e 25536786 34; e 234709739 33; e 167140036 33; e 206437441 33; e 19197512 34;
   e 140978701 33; e 16783364 34];
  [e 451931964 32; e 104801192 33; e 110464926 33; e 887750301 32; e 107765927 33;
   e 136815853 33; e 144357455 33; e 957168856 32; e 119922361 33; e 106610473 33;
   e 140634892 33; e 158812318 33; e 176099183 33];
  [e 544499671 32; e 510587634 32; e 126850437 33; e 92493493 33; e 792907207 32;
   e 880519071 32; e 98681082 33; e 646766139 32; e 345349361 32; e 926713024 32;
   e 785000012 32; e 108572729 33; e 106065623 33];
  [e 419739199 32; e 380925425 32; e 580847063 32; e 874346949 32; e 808075641 32;
   e 840021806 32; e 986406473 32; e 429066901 32; e 570136326 32; e 430624165 32;
   e 45686509 33; e 310298146 32; e 606444983 32];
  [e 256927508 32; e 265511466 32; e 481643625 32; e 514329677 32; e 493314939 32;
   e 593958355 32; e 59077007 33; e 581412012 32; e 593074316 32; e 549378929 32;
   e 687266023 32; e 694893786 32; e 56138707 33];
  [e 219101711 32; e 229629043 32; e 355257699 32; e 35080506 33; e 362979491 32; e 40409769 33;
   e 439791617 32; e 399443305 32; e 468166255 32; e 645213251 32; e 541870132 32;
   e 642915116 32; e 698036706 32];
  [e 191215247 32; e 171072374 32; e 212961452 32; e 279556747 32; e 272416205 32;
   e 296713563 32; e 323184865 32; e 311271202 32; e 315995516 32; e 394631997 32;
   e 444039784 32; e 546583985 32; e 445581567 32];
  [e 220111632 32; e 165783623 32; e 194917221 32; e 161622441 32; e 196027851 32;
   e 208862086 32; e 218689143 32; e 286895973 32; e 289985972 32; e 304897614 32;
   e 337148298 32; e 391880262 32; e 510595402 32];
  [e 762626795 31; e 66211057 32; e 100405679 32; e 161077599 32; e 171784821 32;
   e 179484935 32; e 165900227 32; e 198702136 32; e 256108609 32; e 219137694 32;
   e 308038639 32; e 331004624 32; e 349052862 32];
  [e 190473697 32; e 101185795 32; e 95990823 32; e 109763332 32; e 102849084 32;
   e 973617795 31; e 161013264 32; e 17152974 33; e 13948255 33; e 186762651 32; e 207796692 32;
   e 222639993 32; e 252821647 32];
  [e 151369396 32; e 117473139 32; e 10131693 33; e 694983752 31; e 812420867 31;
   e 117004954 32; e 104930616 32; e 103284011 32; e 139822944 32; e 163416255 32;
   e 136153273 32; e 200647138 32; e 851297781 30];
  [e 231950011 31; e 479684878 31; e 575308051 31; e 950867685 31; e 940270815 31;
   e 954624983 31; e 791204691 31; e 941195956 31; e 110647604 32; e 943570018 31;
   e 144631455 32; e 132768176 32; e 419063321 33];
  [e 239937511 32; e 125408099 32; e 79056924 32; e 582076245 31; e 67912689 32; e 482566656 31;
   e 937457672 31; e 931702868 31; e 826777634 31; e 97102696 32; e 940762884 31;
   e 114475349 31; e 36998465 34];
  [e 317441593 31; e 285735622 31; e 317689315 31; e 567304913 31; e 749265412 31;
   e 804705532 31; e 704618841 31; e 735329145 31; e 876497584 31; e 837279266 31;
   e 816236409 31; e 219052203 30; e 212661176 33];
  [e 409890563 30; e 125190489 31; e 396847776 31; e 508075277 31; e 400879424 31;
   e 420904882 31; e 519996384 31; e 588170752 31; e 643041869 31; e 725838563 31;
   e 320376518 31; e 157708542 33; e 231312836 33];
  [e 965885757 30; e 154019787 31; e 269853705 31; e 306286069 31; e 321678315 31;
   e 514606404 31; e 607760493 31; e 618172595 31; e 6695497 33; e 620776245 31; e 135861221 29;
   e 286711372 33; e 154125926 33];
  [e 235770217 31; e 501508365 31; e 266883106 31; e 27860469 32; e 300885911 31;
   e 331240904 31; e 360545853 31; e 372070525 31; e 375042319 31; e 222344448 31;
   e 861628347 32; e 343510263 33; e 739207065 32];
  [e 155783687 32; e 968313853 31; e 140060963 32; e 455702621 31; e 270825874 31;
   e 299977114 31; e 33185673 32; e 347890698 31; e 169092083 31; e 583819678 27;
   e 255250457 33; e 139616117 33; e 62566037 33];
  [e 270326969 33; e 145126708 33; e 630203284 32; e 450004224 32; e 26788744 32; e 24016956 32;
   e 24819329 32; e 299556701 28; e 136918683 27; e 948034859 32; e 252142186 33;
   e 147806413 33; e 160088651 33];
  [e 419219774 33; e 361438684 33; e 303860333 33; e 128591345 33; e 617727532 32;
   e 311986919 29; e 321818917 30; e 249209825 32; e 813440151 32; e 265639704 33;
   e 186641011 33; e 615264101 32; e 450143395 32];
  [e 996352739 31; e 155752189 33; e 332392272 33; e 252454162 33; e 268280569 33;
   e 985563485 32; e 729400656 32; e 337828143 33; e 142512075 33; e 221478991 33;
   e 950992428 32; e 109893312 33; e 107608542 32];
  [e 174275203 29; e 119014479 33; e 182704975 22; e 104957724 33; e 490569163 29;
   e 150014482 33; e 138429279 33; e 137787275 33; e 105340211 33; e 925344709 32;
   e 727523308 32; e 86560693 33; e 726148342 31]].
