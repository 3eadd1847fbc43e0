(** The currency constants of crates/RustQuant_instruments/src/fx/currency.rs
    (170-327, the expansion of [generate_currencies!], 143-167), in source order.
    Each constant's Rust identifier is its alphabetic code.  Strings are the
    UTF-8 bytes of the Rust literals. *)
From Coq Require Import List String NArith.
From Verif Require Import AcctModel.
Import ListNotations.
Local Open Scope string_scope.
Local Open Scope N_scope.

Definition currencies : list currency := [
  Currency "United Arab Emirates Dirham" "د.إ" (Iso4217 "AED" "784") 2 100;
  Currency "Afghan Afghani" "؋" (Iso4217 "AFN" "971") 2 100;
  Currency "Albanian Lek" "L" (Iso4217 "ALL" "008") 2 100;
  Currency "Armenian Dram" "֏" (Iso4217 "AMD" "051") 2 100;
  Currency "Netherlands Antillean Guilder" "ƒ" (Iso4217 "ANG" "532") 2 100;
  Currency "Angolan Kwanza" "Kz" (Iso4217 "AOA" "973") 2 100;
  Currency "Argentine Peso" "AR$" (Iso4217 "ARS" "032") 2 100;
  Currency "Australian Dollar" "AU$" (Iso4217 "AUD" "036") 2 100;
  Currency "Aruban Florin" "ƒ" (Iso4217 "AWG" "533") 2 100;
  Currency "Azerbaijani Manat" "₼" (Iso4217 "AZN" "944") 2 100;
  Currency "Bosnia and Herzegovina Convertible Mark" "KM" (Iso4217 "BAM" "977") 2 100;
  Currency "Barbados Dollar" "Bds$" (Iso4217 "BBD" "052") 2 100;
  Currency "Bangladeshi Taka" "৳" (Iso4217 "BDT" "050") 2 100;
  Currency "Bulgarian Lev" "лв" (Iso4217 "BGN" "975") 2 100;
  Currency "Bahraini Dinar" "BD" (Iso4217 "BHD" "048") 3 1000;
  Currency "Burundian Franc" "FBu" (Iso4217 "BIF" "108") 0 1;
  Currency "Bermudian Dollar" "BD$" (Iso4217 "BMD" "060") 2 100;
  Currency "Brunei Dollar" "BN$" (Iso4217 "BND" "096") 2 100;
  Currency "Boliviano" "Bs" (Iso4217 "BOB" "068") 2 100;
  Currency "Brazilian Real" "R$" (Iso4217 "BRL" "986") 2 100;
  Currency "Bahamian Dollar" "B$" (Iso4217 "BSD" "044") 2 100;
  Currency "Bhutanese Ngultrum" "Nu." (Iso4217 "BTN" "064") 2 100;
  Currency "Botswana Pula" "P" (Iso4217 "BWP" "072") 2 100;
  Currency "Belarusian Ruble" "Br" (Iso4217 "BYN" "933") 2 100;
  Currency "Belize Dollar" "BZ$" (Iso4217 "BZD" "084") 2 100;
  Currency "Canadian Dollar" "CA$" (Iso4217 "CAD" "124") 2 100;
  Currency "Congolese Franc" "FC" (Iso4217 "CDF" "976") 2 100;
  Currency "Swiss Franc" "CHF" (Iso4217 "CHF" "756") 2 100;
  Currency "Chilean Peso" "CL$" (Iso4217 "CLP" "152") 0 1;
  Currency "Colombian Peso" "CO$" (Iso4217 "COP" "170") 2 100;
  Currency "Costa Rican Colon" "₡" (Iso4217 "CRC" "188") 2 100;
  Currency "Cuban Convertible Peso" "$" (Iso4217 "CUC" "931") 2 100;
  Currency "Cuban Peso" "$MN" (Iso4217 "CUP" "192") 2 100;
  Currency "Cape Verdean Escudo" "Esc" (Iso4217 "CVE" "132") 2 100;
  Currency "Czech Koruna" "Kč" (Iso4217 "CZK" "203") 2 100;
  Currency "Djiboutian Franc" "Fdj" (Iso4217 "DJF" "262") 0 1;
  Currency "Danish Krone" "kr" (Iso4217 "DKK" "208") 2 100;
  Currency "Dominican Peso" "RD$" (Iso4217 "DOP" "214") 2 100;
  Currency "Algerian Dinar" "دج" (Iso4217 "DZD" "012") 2 100;
  Currency "Egyptian Pound" "E£" (Iso4217 "EGP" "818") 2 100;
  Currency "Eritrean Nakfa" "Nfk" (Iso4217 "ERN" "232") 2 100;
  Currency "Ethiopian Birr" "Br" (Iso4217 "ETB" "230") 2 100;
  Currency "Euro" "€" (Iso4217 "EUR" "978") 2 100;
  Currency "Fijian Dollar" "FJ$" (Iso4217 "FJD" "242") 2 100;
  Currency "Falkland Islands Pound" "FK£" (Iso4217 "FKP" "238") 2 100;
  Currency "Pound Sterling" "£" (Iso4217 "GBP" "826") 2 100;
  Currency "Georgian Lari" "₾" (Iso4217 "GEL" "981") 2 100;
  Currency "Ghanaian Cedi" "GH₵" (Iso4217 "GHS" "936") 2 100;
  Currency "Gibraltar Pound" "£" (Iso4217 "GIP" "292") 2 100;
  Currency "Gambian Dalasi" "D" (Iso4217 "GMD" "270") 2 100;
  Currency "Guinean Franc" "FG" (Iso4217 "GNF" "324") 0 1;
  Currency "Guatemalan Quetzal" "Q" (Iso4217 "GTQ" "320") 2 100;
  Currency "Guyanese Dollar" "GY$" (Iso4217 "GYD" "328") 2 100;
  Currency "Hong Kong Dollar" "HK$" (Iso4217 "HKD" "344") 2 100;
  Currency "Honduran Lempira" "L" (Iso4217 "HNL" "340") 2 100;
  Currency "Croatian Kuna" "kn" (Iso4217 "HRK" "191") 2 100;
  Currency "Haitian Gourde" "G" (Iso4217 "HTG" "332") 2 100;
  Currency "Hungarian Forint" "Ft" (Iso4217 "HUF" "348") 2 100;
  Currency "Indonesian Rupiah" "Rp" (Iso4217 "IDR" "360") 2 100;
  Currency "Israeli New Shekel" "₪" (Iso4217 "ILS" "376") 2 100;
  Currency "Indian Rupee" "₹" (Iso4217 "INR" "356") 2 100;
  Currency "Iraqi Dinar" "ع.د" (Iso4217 "IQD" "368") 3 1000;
  Currency "Iranian Rial" "﷼" (Iso4217 "IRR" "364") 2 100;
  Currency "Icelandic Króna" "kr" (Iso4217 "ISK" "352") 0 1;
  Currency "Jamaican Dollar" "J$" (Iso4217 "JMD" "388") 2 100;
  Currency "Jordanian Dinar" "JD" (Iso4217 "JOD" "400") 3 1000;
  Currency "Japanese Yen" "¥" (Iso4217 "JPY" "392") 0 1;
  Currency "Kenyan Shilling" "KSh" (Iso4217 "KES" "404") 2 100;
  Currency "Kyrgyzstani Som" "лв" (Iso4217 "KGS" "417") 2 100;
  Currency "Cambodian Riel" "៛" (Iso4217 "KHR" "116") 2 100;
  Currency "Comoro Franc" "CF" (Iso4217 "KMF" "174") 0 1;
  Currency "North Korean Won" "₩" (Iso4217 "KPW" "408") 2 100;
  Currency "South Korean Won" "₩" (Iso4217 "KRW" "410") 0 1;
  Currency "Kuwaiti Dinar" "KD" (Iso4217 "KWD" "414") 3 1000;
  Currency "Cayman Islands Dollar" "KY$" (Iso4217 "KYD" "136") 2 100;
  Currency "Kazakhstani Tenge" "₸" (Iso4217 "KZT" "398") 2 100;
  Currency "Lao Kip" "₭" (Iso4217 "LAK" "418") 2 100;
  Currency "Lebanese Pound" "L£" (Iso4217 "LBP" "422") 2 100;
  Currency "Sri Lankan Rupee" "Rs" (Iso4217 "LKR" "144") 2 100;
  Currency "Liberian Dollar" "L$" (Iso4217 "LRD" "430") 2 100;
  Currency "Lesotho Loti" "M" (Iso4217 "LSL" "426") 2 100;
  Currency "Libyan Dinar" "LD" (Iso4217 "LYD" "434") 3 1000;
  Currency "Moroccan Dirham" "MAD" (Iso4217 "MAD" "504") 2 100;
  Currency "Moldovan Leu" "MDL" (Iso4217 "MDL" "498") 2 100;
  Currency "Malagasy Ariary" "Ar" (Iso4217 "MGA" "969") 2 100;
  Currency "Macedonian Denar" "ден" (Iso4217 "MKD" "807") 2 100;
  Currency "Myanmar Kyat" "K" (Iso4217 "MMK" "104") 2 100;
  Currency "Mongolian Tögrög" "₮" (Iso4217 "MNT" "496") 2 100;
  Currency "Macanese Pataca" "MOP$" (Iso4217 "MOP" "446") 2 100;
  Currency "Mauritanian Ouguiya" "UM" (Iso4217 "MRO" "478") 2 100;
  Currency "Mauritian Rupee" "Rs" (Iso4217 "MUR" "480") 2 100;
  Currency "Maldivian Rufiyaa" "Rf" (Iso4217 "MVR" "462") 2 100;
  Currency "Malawian Kwacha" "MK" (Iso4217 "MWK" "454") 2 100;
  Currency "Mexican Peso" "MX$" (Iso4217 "MXN" "484") 2 100;
  Currency "Malaysian Ringgit" "RM" (Iso4217 "MYR" "458") 2 100;
  Currency "Mozambican Metical" "MT" (Iso4217 "MZN" "943") 2 100;
  Currency "Namibian Dollar" "N$" (Iso4217 "NAD" "516") 2 100;
  Currency "Nigerian Naira" "₦" (Iso4217 "NGN" "566") 2 100;
  Currency "Nicaraguan Córdoba" "C$" (Iso4217 "NIO" "558") 2 100;
  Currency "Norwegian Krone" "kr" (Iso4217 "NOK" "578") 2 100;
  Currency "Nepalese Rupee" "Rs" (Iso4217 "NPR" "524") 2 100;
  Currency "New Zealand Dollar" "NZ$" (Iso4217 "NZD" "554") 2 100;
  Currency "Omani Rial" "OMR" (Iso4217 "OMR" "512") 3 1000;
  Currency "Panamanian Balboa" "B/." (Iso4217 "PAB" "590") 2 100;
  Currency "Peruvian Sol" "S/." (Iso4217 "PEN" "604") 2 100;
  Currency "Papua New Guinean Kina" "K" (Iso4217 "PGK" "598") 2 100;
  Currency "Philippine Peso" "₱" (Iso4217 "PHP" "608") 2 100;
  Currency "Pakistani Rupee" "Rs" (Iso4217 "PKR" "586") 2 100;
  Currency "Polish Złoty" "zł" (Iso4217 "PLN" "985") 2 100;
  Currency "Paraguayan Guarani" "₲" (Iso4217 "PYG" "600") 0 1;
  Currency "Qatari Riyal" "QR" (Iso4217 "QAR" "634") 2 100;
  Currency "Romanian Leu" "lei" (Iso4217 "RON" "946") 2 100;
  Currency "Serbian Dinar" "din" (Iso4217 "RSD" "941") 2 100;
  Currency "Renminbi (Chinese) Yuan" "¥" (Iso4217 "CNY" "156") 2 100;
  Currency "Russian Ruble" "₽" (Iso4217 "RUB" "643") 2 100;
  Currency "Rwandan Franc" "RF" (Iso4217 "RWF" "646") 0 1;
  Currency "Saudi Riyal" "SR" (Iso4217 "SAR" "682") 2 100;
  Currency "Solomon Islands Dollar" "SI$" (Iso4217 "SBD" "090") 2 100;
  Currency "Seychelles Rupee" "SR" (Iso4217 "SCR" "690") 2 100;
  Currency "Sudanese Pound" "SDG" (Iso4217 "SDG" "938") 2 100;
  Currency "Swedish Krona/Kronor" "kr" (Iso4217 "SEK" "752") 2 100;
  Currency "Singapore Dollar" "S$" (Iso4217 "SGD" "702") 2 100;
  Currency "Saint Helena Pound" "£" (Iso4217 "SHP" "654") 2 100;
  Currency "Sierra Leonean (new) Leone" "Le" (Iso4217 "SLE" "925") 2 100;
  Currency "Sierra Leonean (old) Leone" "Le" (Iso4217 "SLL" "694") 2 100;
  Currency "Somali Shilling" "Sh" (Iso4217 "SOS" "706") 2 100;
  Currency "Surinamese Dollar" "SR$" (Iso4217 "SRD" "968") 2 100;
  Currency "South Sudanese Pound" "SSP" (Iso4217 "SSP" "728") 2 100;
  Currency "São Tomé and Príncipe Dobra" "Db" (Iso4217 "STN" "930") 2 100;
  Currency "Salvadoran Colón" "₡" (Iso4217 "SVC" "222") 2 100;
  Currency "Syrian Pound" "LS" (Iso4217 "SYP" "760") 2 100;
  Currency "Swazi Lilangeni" "E" (Iso4217 "SZL" "748") 2 100;
  Currency "Thai Baht" "฿" (Iso4217 "THB" "764") 2 100;
  Currency "Tajikistani Somoni" "SM" (Iso4217 "TJS" "972") 2 100;
  Currency "Turkmenistan Manat" "T" (Iso4217 "TMT" "934") 2 100;
  Currency "Tunisian Dinar" "DT" (Iso4217 "TND" "788") 3 1000;
  Currency "Tongan Paʻanga" "T$" (Iso4217 "TOP" "776") 2 100;
  Currency "Turkish Lira" "₺" (Iso4217 "TRY" "949") 2 100;
  Currency "Trinidad and Tobago Dollar" "TT$" (Iso4217 "TTD" "780") 2 100;
  Currency "New Taiwan Dollar" "NT$" (Iso4217 "TWD" "901") 2 100;
  Currency "Tanzanian Shilling" "TSh" (Iso4217 "TZS" "834") 2 100;
  Currency "Ukrainian Hryvnia" "₴" (Iso4217 "UAH" "980") 2 100;
  Currency "Ugandan Shilling" "USh" (Iso4217 "UGX" "800") 0 1;
  Currency "United States Dollar" "$" (Iso4217 "USD" "840") 2 100;
  Currency "Uruguayan Peso" "$U" (Iso4217 "UYU" "858") 2 100;
  Currency "Uzbekistan Som" "лв" (Iso4217 "UZS" "860") 2 100;
  Currency "Venezuelan Bolívar Soberano" "Bs" (Iso4217 "VES" "928") 2 100;
  Currency "Vietnamese Đồng" "₫" (Iso4217 "VND" "704") 0 1;
  Currency "Vanuatu Vatu" "VT" (Iso4217 "VUV" "548") 0 1;
  Currency "Samoan Tālā" "WS$" (Iso4217 "WST" "882") 2 100;
  Currency "CFA Franc BEAC" "FCFA" (Iso4217 "XAF" "950") 0 1;
  Currency "East Caribbean Dollar" "EC$" (Iso4217 "XCD" "951") 2 100;
  Currency "CFA Franc BCEAO" "CFA" (Iso4217 "XOF" "952") 0 1;
  Currency "CFP Franc" "₣" (Iso4217 "XPF" "953") 0 1;
  Currency "Yemeni Rial" "YR" (Iso4217 "YER" "886") 2 100;
  Currency "South African Rand" "R" (Iso4217 "ZAR" "710") 2 100;
  Currency "Zambian Kwacha" "ZK" (Iso4217 "ZMW" "967") 2 100;
  Currency "Zimbabwean Dollar" "Z$" (Iso4217 "ZWL" "932") 2 100
].
