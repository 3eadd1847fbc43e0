(** The tables of crates/RustQuant_iso/src/iso_3166.rs and iso_10383.rs, in source
    order, written by tools/iso_tables.py.  Strings are UTF-8 bytes. *)
From Coq Require Import List String.
From Verif Require Import IsoModel.
Import ListNotations.
Local Open Scope string_scope.

(** iso_3166.rs 52-302: the arms of [from_alpha_2] *)
Definition arms : list (string * string) := [
  ("AF", "AFGHANISTAN");
  ("AX", "ÅLAND_ISLANDS");
  ("AL", "ALBANIA");
  ("DZ", "ALGERIA");
  ("AS", "AMERICAN_SAMOA");
  ("AD", "ANDORRA");
  ("AO", "ANGOLA");
  ("AI", "ANGUILLA");
  ("AQ", "ANTARCTICA");
  ("AG", "ANTIGUA_AND_BARBUDA");
  ("AR", "ARGENTINA");
  ("AM", "ARMENIA");
  ("AW", "ARUBA");
  ("AU", "AUSTRALIA");
  ("AT", "AUSTRIA");
  ("AZ", "AZERBAIJAN");
  ("BS", "BAHAMAS");
  ("BH", "BAHRAIN");
  ("BD", "BANGLADESH");
  ("BB", "BARBADOS");
  ("BY", "BELARUS");
  ("BE", "BELGIUM");
  ("BZ", "BELIZE");
  ("BJ", "BENIN");
  ("BM", "BERMUDA");
  ("BT", "BHUTAN");
  ("BO", "BOLIVIA");
  ("BQ", "BONAIRE_SINT_EUSTATIUS_AND_SABA");
  ("BA", "BOSNIA_AND_HERZEGOVINA");
  ("BW", "BOTSWANA");
  ("BV", "BOUVET_ISLAND");
  ("BR", "BRAZIL");
  ("IO", "BRITISH_INDIAN_OCEAN_TERRITORY");
  ("BN", "BRUNEI_DARUSSALAM");
  ("BG", "BULGARIA");
  ("BF", "BURKINA_FASO");
  ("BI", "BURUNDI");
  ("CV", "CABO_VERDE");
  ("KH", "CAMBODIA");
  ("CM", "CAMEROON");
  ("CA", "CANADA");
  ("KY", "CAYMAN_ISLANDS");
  ("CF", "CENTRAL_AFRICAN_REPUBLIC");
  ("TD", "CHAD");
  ("CL", "CHILE");
  ("CN", "CHINA");
  ("CX", "CHRISTMANS_ISLAND");
  ("CC", "COCOS_ISLANDS");
  ("CO", "COLOMBIA");
  ("KM", "COMOROS");
  ("CG", "CONGO");
  ("CD", "CONGO_DEMOCRATIC_REPUBLIC");
  ("CK", "COOK_ISLANDS");
  ("CR", "COSTA_RICA");
  ("CI", "CÔTE_DIVOIRE");
  ("HR", "CROATIA");
  ("CU", "CUBA");
  ("CW", "CURAÇAO");
  ("CY", "CYPRUS");
  ("CZ", "CZECH_REPUBLIC");
  ("DK", "DENMARK");
  ("DJ", "DJIBOUTI");
  ("DM", "DOMINICA");
  ("DO", "DOMINICAN_REPUBLIC");
  ("EC", "ECUADOR");
  ("EG", "EGYPT");
  ("SV", "EL_SALVADOR");
  ("GQ", "EQUATORIAL_GUINEA");
  ("ER", "ERITREA");
  ("EE", "ESTONIA");
  ("SZ", "ESWATINI");
  ("ET", "ETHIOPIA");
  ("FK", "FALKLAND_ISLANDS");
  ("FO", "FAROE_ISLANDS");
  ("FJ", "FIJI");
  ("FI", "FINLAND");
  ("FR", "FRANCE");
  ("GF", "FRENCH_GUINEA");
  ("PF", "FRENCH_POLYNESIA");
  ("TF", "FRENCH_SOUTHERN_TERRITORIES");
  ("GA", "GABON");
  ("GM", "GAMBIA");
  ("GE", "GEORGIA");
  ("DE", "GERMANY");
  ("GH", "GHANA");
  ("GI", "GIBRALTAR");
  ("GR", "GREECE");
  ("GL", "GREENLAND");
  ("GD", "GRENADA");
  ("GP", "GUADELOUPE");
  ("GU", "GUAM");
  ("GT", "GUATEMALA");
  ("GG", "GUERNSEY");
  ("GN", "GUINEA");
  ("GW", "GUINEA_BISSAU");
  ("GY", "GUYANA");
  ("HT", "HAITI");
  ("HM", "HEARD_ISLAND_AND_MCDONALD_ISLANDS");
  ("VA", "HOLY_SEE");
  ("HN", "HONDURAS");
  ("HK", "HONG_KONG");
  ("HU", "HUNGARY");
  ("IS", "ICELAND");
  ("IN", "INDIA");
  ("ID", "INDONESIA");
  ("IR", "IRAN");
  ("IQ", "IRAQ");
  ("IE", "IRELAND");
  ("IM", "ISLE_OF_MAN");
  ("IL", "ISRAEL");
  ("IT", "ITALY");
  ("JM", "JAMAICA");
  ("JP", "JAPAN");
  ("JE", "JERSEY");
  ("JO", "JORDAN");
  ("KZ", "KAZAKHSTAN");
  ("KE", "KENYA");
  ("KI", "KIRIBATI");
  ("KP", "KOREA_DEMOCRATIC_PEOPLE_REPUBLIC");
  ("KR", "KOREA_REPUBLIC");
  ("KW", "KUWAIT");
  ("KG", "KYRGYZSTAN");
  ("LA", "LAO_PEOPLE_DEMOCRATIC_REPUBLIC");
  ("LV", "LATVIA");
  ("LB", "LEBANON");
  ("LS", "LESOTHO");
  ("LR", "LIBERIA");
  ("LY", "LIBYA");
  ("LI", "LIECHTENSTEIN");
  ("LT", "LITHUANIA");
  ("LU", "LUXEMBOURG");
  ("MO", "MACAO");
  ("MG", "MADAGASCAR");
  ("MW", "MALAWI");
  ("MY", "MALAYSIA");
  ("MV", "MALDIVES");
  ("ML", "MALI");
  ("MT", "MALTA");
  ("MH", "MARSHALL_ISLANDS");
  ("MQ", "MARTINIQUE");
  ("MR", "MAURITANIA");
  ("MU", "MAURITIUS");
  ("YT", "MAYOTTE");
  ("MX", "MEXICO");
  ("FM", "MICRONESIA");
  ("MD", "MOLDOVA");
  ("MC", "MONACO");
  ("MN", "MONGOLIA");
  ("ME", "MONTENEGRO");
  ("MS", "MONTSERRAT");
  ("MA", "MOROCCO");
  ("MZ", "MOZAMBIQUE");
  ("MM", "MYANMAR");
  ("NA", "NAMIBIA");
  ("NR", "NAURU");
  ("NP", "NEPAL");
  ("NL", "NETHERLANDS");
  ("NC", "NEW_CALEDONIA");
  ("NZ", "NEW_ZEALAND");
  ("NI", "NICARAGUA");
  ("NE", "NIGER");
  ("NG", "NIGERIA");
  ("NU", "NIUE");
  ("NF", "NORFOLK_ISLAND");
  ("MK", "NORTH_MACEDONIA");
  ("MP", "NORTHERN_MARIANA_ISLANDS");
  ("NO", "NORWAY");
  ("OM", "OMAN");
  ("PK", "PAKISTAN");
  ("PW", "PALAU");
  ("PS", "PALESTINE");
  ("PA", "PANAMA");
  ("PG", "PAPUA_NEW_GUINEA");
  ("PY", "PARAGUAY");
  ("PE", "PERU");
  ("PH", "PHILIPPINES");
  ("PN", "PITCAIRN");
  ("PL", "POLAND");
  ("PT", "PORTUGAL");
  ("PR", "PUERTO_RICO");
  ("QA", "QATAR");
  ("RE", "RÉUNION");
  ("RO", "ROMANIA");
  ("RU", "RUSSIAN_FEDERATION");
  ("RW", "RWANDA");
  ("BL", "SAINT_BARTHELEMY");
  ("SH", "SAINT_HELENA_ASCENSION_AND_TRISTAN_DA_CUNHA");
  ("KN", "SAINT_KITTS_AND_NEVIS");
  ("LC", "SAINT_LUCIA");
  ("MF", "SAINT_MARTIN");
  ("PM", "SAINT_PIERRE_AND_MIQUELON");
  ("VC", "SAINT_VINCENT_AND_THE_GRENADINES");
  ("WS", "SAMOA");
  ("SM", "SAN_MARINO");
  ("ST", "SAO_TOME_AND_PRINCIPE");
  ("SA", "SAUDI_ARABIA");
  ("SN", "SENEGAL");
  ("RS", "SERBIA");
  ("SC", "SEYCHELLES");
  ("SL", "SIERRA_LEONE");
  ("SG", "SINGAPORE");
  ("SX", "SINT_MAARTEN");
  ("SK", "SLOVAKIA");
  ("SI", "SLOVENIA");
  ("SB", "SOLOMON_ISLANDS");
  ("SO", "SOMALIA");
  ("ZA", "SOUTH_AFRICA");
  ("GS", "SOUTH_GEORGIA_AND_THE_SOUTH_SANDWICH_ISLANDS");
  ("SS", "SOUTH_SUDAN");
  ("ES", "SPAIN");
  ("LK", "SRI_LANKA");
  ("SD", "SUDAN");
  ("SR", "SURINAME");
  ("SJ", "SVALBARD_AND_JAN_MAYEN");
  ("SE", "SWEDEN");
  ("CH", "SWITZERLAND");
  ("SY", "SYRIAN_ARAB_REPUBLIC");
  ("TW", "TAIWAN");
  ("TJ", "TAJIKISTAN");
  ("TZ", "TANZANIA");
  ("TH", "THAILAND");
  ("TL", "TIMOR_LESTE");
  ("TG", "TOGO");
  ("TK", "TOKELAU");
  ("TO", "TONGA");
  ("TT", "TRINIDAD_AND_TOBAGO");
  ("TN", "TUNISIA");
  ("TR", "TURKEY");
  ("TM", "TURKMENISTAN");
  ("TC", "TURKS_AND_CAICOS_ISLANDS");
  ("TV", "TUVALU");
  ("UG", "UGANDA");
  ("UA", "UKRAINE");
  ("AE", "UNITED_ARAB_EMIRATES");
  ("GB", "UNITED_KINGDOM_OF_GREAT_BRITAIN_AND_NORTHERN_IRELAND");
  ("US", "UNITED_STATES_OF_AMERICA");
  ("UM", "UNITED_STATES_MINOR_OUTLYING_ISLANDS");
  ("UY", "URUGUAY");
  ("UZ", "UZBEKISTAN");
  ("VU", "VANUATU");
  ("VE", "VENEZUELA");
  ("VN", "VIETNAM");
  ("VG", "VIRGIN_ISLANDS_BRITISH");
  ("VI", "VIRGIN_ISLANDS_US");
  ("WF", "WALLIS_AND_FUTUNA");
  ("EH", "WESTERN_SAHARA");
  ("YE", "YEMEN");
  ("ZM", "ZAMBIA");
  ("ZW", "ZIMBABWE")].
(** iso_3166.rs 321-646: the constants *)
Definition countries : list (string * iso3166) := [
  ("AFGHANISTAN", Iso3166 "AF" "AFG" "004");
  ("ÅLAND_ISLANDS", Iso3166 "AX" "ALA" "248");
  ("ALBANIA", Iso3166 "AL" "ALB" "008");
  ("ALGERIA", Iso3166 "DZ" "DZA" "012");
  ("AMERICAN_SAMOA", Iso3166 "AS" "ASM" "016");
  ("ANDORRA", Iso3166 "AD" "AND" "020");
  ("ANGOLA", Iso3166 "AO" "AGO" "024");
  ("ANGUILLA", Iso3166 "AI" "AIA" "660");
  ("ANTARCTICA", Iso3166 "AQ" "ATA" "010");
  ("ANTIGUA_AND_BARBUDA", Iso3166 "AG" "ATG" "028");
  ("ARGENTINA", Iso3166 "AR" "ARG" "032");
  ("ARMENIA", Iso3166 "AM" "ARM" "051");
  ("ARUBA", Iso3166 "AW" "ABW" "533");
  ("AUSTRALIA", Iso3166 "AU" "AUS" "036");
  ("AUSTRIA", Iso3166 "AT" "AUT" "040");
  ("AZERBAIJAN", Iso3166 "AZ" "AZE" "031");
  ("BAHAMAS", Iso3166 "BS" "BHS" "044");
  ("BAHRAIN", Iso3166 "BH" "BHR" "048");
  ("BANGLADESH", Iso3166 "BD" "BGD" "050");
  ("BARBADOS", Iso3166 "BB" "BRB" "052");
  ("BELARUS", Iso3166 "BY" "BLR" "112");
  ("BELGIUM", Iso3166 "BE" "BEL" "056");
  ("BELIZE", Iso3166 "BZ" "BLZ" "084");
  ("BENIN", Iso3166 "BJ" "BEN" "204");
  ("BERMUDA", Iso3166 "BM" "BMU" "060");
  ("BHUTAN", Iso3166 "BT" "BTN" "064");
  ("BOLIVIA", Iso3166 "BO" "BOL" "068");
  ("BONAIRE_SINT_EUSTATIUS_AND_SABA", Iso3166 "BQ" "BES" "535");
  ("BOSNIA_AND_HERZEGOVINA", Iso3166 "BA" "BIH" "070");
  ("BOTSWANA", Iso3166 "BW" "BWA" "072");
  ("BOUVET_ISLAND", Iso3166 "BV" "BVT" "074");
  ("BRAZIL", Iso3166 "BR" "BRA" "076");
  ("BRITISH_INDIAN_OCEAN_TERRITORY", Iso3166 "IO" "IOT" "086");
  ("BRUNEI_DARUSSALAM", Iso3166 "BN" "BRN" "096");
  ("BULGARIA", Iso3166 "BG" "BGR" "100");
  ("BURKINA_FASO", Iso3166 "BF" "BFA" "854");
  ("BURUNDI", Iso3166 "BI" "BDI" "108");
  ("CABO_VERDE", Iso3166 "CV" "CPV" "132");
  ("CAMBODIA", Iso3166 "KH" "KHM" "116");
  ("CAMEROON", Iso3166 "CM" "CMR" "120");
  ("CANADA", Iso3166 "CA" "CAN" "124");
  ("CAYMAN_ISLANDS", Iso3166 "KY" "CYM" "136");
  ("CENTRAL_AFRICAN_REPUBLIC", Iso3166 "CF" "CAF" "140");
  ("CHAD", Iso3166 "TD" "TCD" "148");
  ("CHILE", Iso3166 "CL" "CHL" "152");
  ("CHINA", Iso3166 "CN" "CHN" "156");
  ("CHRISTMANS_ISLAND", Iso3166 "CX" "CXR" "162");
  ("COCOS_ISLANDS", Iso3166 "CC" "CCK" "166");
  ("COLOMBIA", Iso3166 "CO" "COL" "170");
  ("COMOROS", Iso3166 "KM" "COM" "174");
  ("CONGO", Iso3166 "CG" "COG" "178");
  ("CONGO_DEMOCRATIC_REPUBLIC", Iso3166 "CD" "COD" "180");
  ("COOK_ISLANDS", Iso3166 "CK" "COK" "184");
  ("COSTA_RICA", Iso3166 "CR" "CRI" "188");
  ("CÔTE_DIVOIRE", Iso3166 "CI" "CIV" "384");
  ("CROATIA", Iso3166 "HR" "HRV" "191");
  ("CUBA", Iso3166 "CU" "CUB" "192");
  ("CURAÇAO", Iso3166 "CW" "CUW" "531");
  ("CYPRUS", Iso3166 "CY" "CYP" "196");
  ("CZECH_REPUBLIC", Iso3166 "CZ" "CZE" "203");
  ("DENMARK", Iso3166 "DK" "DNK" "208");
  ("DJIBOUTI", Iso3166 "DJ" "DJI" "262");
  ("DOMINICA", Iso3166 "DM" "DMA" "212");
  ("DOMINICAN_REPUBLIC", Iso3166 "DO" "DOM" "214");
  ("ECUADOR", Iso3166 "EC" "ECU" "218");
  ("EGYPT", Iso3166 "EG" "EGY" "818");
  ("EL_SALVADOR", Iso3166 "SV" "SLV" "222");
  ("EQUATORIAL_GUINEA", Iso3166 "GQ" "GNQ" "226");
  ("ERITREA", Iso3166 "ER" "ERI" "232");
  ("ESTONIA", Iso3166 "EE" "EST" "233");
  ("ESWATINI", Iso3166 "SZ" "SWZ" "748");
  ("ETHIOPIA", Iso3166 "ET" "ETH" "231");
  ("FALKLAND_ISLANDS", Iso3166 "FK" "FLK" "238");
  ("FAROE_ISLANDS", Iso3166 "FO" "FRO" "234");
  ("FIJI", Iso3166 "FJ" "FJI" "242");
  ("FINLAND", Iso3166 "FI" "FIN" "246");
  ("FRANCE", Iso3166 "FR" "FRA" "250");
  ("FRENCH_GUINEA", Iso3166 "GF" "GUF" "254");
  ("FRENCH_POLYNESIA", Iso3166 "PF" "PYF" "258");
  ("FRENCH_SOUTHERN_TERRITORIES", Iso3166 "TF" "ATF" "260");
  ("GABON", Iso3166 "GA" "GAB" "266");
  ("GAMBIA", Iso3166 "GM" "GMB" "270");
  ("GEORGIA", Iso3166 "GE" "GEO" "268");
  ("GERMANY", Iso3166 "DE" "DEU" "276");
  ("GHANA", Iso3166 "GH" "GHA" "288");
  ("GIBRALTAR", Iso3166 "GI" "GIB" "292");
  ("GREECE", Iso3166 "GR" "GRC" "300");
  ("GREENLAND", Iso3166 "GL" "GRL" "304");
  ("GRENADA", Iso3166 "GD" "GRD" "308");
  ("GUADELOUPE", Iso3166 "GP" "GLP" "312");
  ("GUAM", Iso3166 "GU" "GUM" "316");
  ("GUATEMALA", Iso3166 "GT" "GTM" "320");
  ("GUERNSEY", Iso3166 "GG" "GGY" "831");
  ("GUINEA", Iso3166 "GN" "GIN" "324");
  ("GUINEA_BISSAU", Iso3166 "GW" "GNB" "624");
  ("GUYANA", Iso3166 "GY" "GUY" "328");
  ("HAITI", Iso3166 "HT" "HTI" "332");
  ("HEARD_ISLAND_AND_MCDONALD_ISLANDS", Iso3166 "HM" "HMD" "334");
  ("HOLY_SEE", Iso3166 "VA" "VAT" "336");
  ("HONDURAS", Iso3166 "HN" "HND" "340");
  ("HONG_KONG", Iso3166 "HK" "HKG" "344");
  ("HUNGARY", Iso3166 "HU" "HUN" "348");
  ("ICELAND", Iso3166 "IS" "ISL" "352");
  ("INDIA", Iso3166 "IN" "IND" "356");
  ("INDONESIA", Iso3166 "ID" "IDN" "360");
  ("IRAN", Iso3166 "IR" "IRN" "364");
  ("IRAQ", Iso3166 "IQ" "IRQ" "368");
  ("IRELAND", Iso3166 "IE" "IRL" "372");
  ("ISLE_OF_MAN", Iso3166 "IM" "IMN" "833");
  ("ISRAEL", Iso3166 "IL" "ISR" "376");
  ("ITALY", Iso3166 "IT" "ITA" "380");
  ("JAMAICA", Iso3166 "JM" "JAM" "388");
  ("JAPAN", Iso3166 "JP" "JPN" "392");
  ("JERSEY", Iso3166 "JE" "JEY" "832");
  ("JORDAN", Iso3166 "JO" "JOR" "400");
  ("KAZAKHSTAN", Iso3166 "KZ" "KAZ" "398");
  ("KENYA", Iso3166 "KE" "KEN" "404");
  ("KIRIBATI", Iso3166 "KI" "KIR" "296");
  ("KOREA_DEMOCRATIC_PEOPLE_REPUBLIC", Iso3166 "KP" "PRK" "408");
  ("KOREA_REPUBLIC", Iso3166 "KR" "KOR" "410");
  ("KUWAIT", Iso3166 "KW" "KWT" "414");
  ("KYRGYZSTAN", Iso3166 "KG" "KGZ" "417");
  ("LAO_PEOPLE_DEMOCRATIC_REPUBLIC", Iso3166 "LA" "LAO" "418");
  ("LATVIA", Iso3166 "LV" "LVA" "428");
  ("LEBANON", Iso3166 "LB" "LBN" "422");
  ("LESOTHO", Iso3166 "LS" "LSO" "426");
  ("LIBERIA", Iso3166 "LR" "LBR" "430");
  ("LIBYA", Iso3166 "LY" "LBY" "434");
  ("LIECHTENSTEIN", Iso3166 "LI" "LIE" "438");
  ("LITHUANIA", Iso3166 "LT" "LTU" "440");
  ("LUXEMBOURG", Iso3166 "LU" "LUX" "442");
  ("MACAO", Iso3166 "MO" "MAC" "446");
  ("MADAGASCAR", Iso3166 "MG" "MDG" "450");
  ("MALAWI", Iso3166 "MW" "MWI" "454");
  ("MALAYSIA", Iso3166 "MY" "MYS" "458");
  ("MALDIVES", Iso3166 "MV" "MDV" "462");
  ("MALI", Iso3166 "ML" "MLI" "466");
  ("MALTA", Iso3166 "MT" "MLT" "470");
  ("MARSHALL_ISLANDS", Iso3166 "MH" "MHL" "584");
  ("MARTINIQUE", Iso3166 "MQ" "MTQ" "474");
  ("MAURITANIA", Iso3166 "MR" "MRT" "478");
  ("MAURITIUS", Iso3166 "MU" "MUS" "480");
  ("MAYOTTE", Iso3166 "YT" "MYT" "175");
  ("MEXICO", Iso3166 "MX" "MEX" "484");
  ("MICRONESIA", Iso3166 "FM" "FSM" "583");
  ("MOLDOVA", Iso3166 "MD" "MDA" "498");
  ("MONACO", Iso3166 "MC" "MCO" "492");
  ("MONGOLIA", Iso3166 "MN" "MNG" "496");
  ("MONTENEGRO", Iso3166 "ME" "MNE" "499");
  ("MONTSERRAT", Iso3166 "MS" "MSR" "500");
  ("MOROCCO", Iso3166 "MA" "MAR" "504");
  ("MOZAMBIQUE", Iso3166 "MZ" "MOZ" "508");
  ("MYANMAR", Iso3166 "MM" "MMR" "104");
  ("NAMIBIA", Iso3166 "NA" "NAM" "516");
  ("NAURU", Iso3166 "NR" "NRU" "520");
  ("NEPAL", Iso3166 "NP" "NPL" "524");
  ("NETHERLANDS", Iso3166 "NL" "NLD" "528");
  ("NEW_CALEDONIA", Iso3166 "NC" "NCL" "540");
  ("NEW_ZEALAND", Iso3166 "NZ" "NZL" "554");
  ("NICARAGUA", Iso3166 "NI" "NIC" "558");
  ("NIGER", Iso3166 "NE" "NER" "562");
  ("NIGERIA", Iso3166 "NG" "NGA" "566");
  ("NIUE", Iso3166 "NU" "NIU" "570");
  ("NORFOLK_ISLAND", Iso3166 "NF" "NFK" "574");
  ("NORTH_MACEDONIA", Iso3166 "MK" "MKD" "807");
  ("NORTHERN_MARIANA_ISLANDS", Iso3166 "MP" "MNP" "580");
  ("NORWAY", Iso3166 "NO" "NOR" "578");
  ("OMAN", Iso3166 "OM" "OMN" "512");
  ("PAKISTAN", Iso3166 "PK" "PAK" "586");
  ("PALAU", Iso3166 "PW" "PLW" "585");
  ("PALESTINE", Iso3166 "PS" "PSE" "275");
  ("PANAMA", Iso3166 "PA" "PAN" "591");
  ("PAPUA_NEW_GUINEA", Iso3166 "PG" "PNG" "598");
  ("PARAGUAY", Iso3166 "PY" "PRY" "600");
  ("PERU", Iso3166 "PE" "PER" "604");
  ("PHILIPPINES", Iso3166 "PH" "PHL" "608");
  ("PITCAIRN", Iso3166 "PN" "PCN" "612");
  ("POLAND", Iso3166 "PL" "POL" "616");
  ("PORTUGAL", Iso3166 "PT" "PRT" "620");
  ("PUERTO_RICO", Iso3166 "PR" "PRI" "630");
  ("QATAR", Iso3166 "QA" "QAT" "634");
  ("RÉUNION", Iso3166 "RE" "REU" "638");
  ("ROMANIA", Iso3166 "RO" "ROU" "642");
  ("RUSSIAN_FEDERATION", Iso3166 "RU" "RUS" "643");
  ("RWANDA", Iso3166 "RW" "RWA" "646");
  ("SAINT_BARTHELEMY", Iso3166 "BL" "BLM" "652");
  ("SAINT_HELENA_ASCENSION_AND_TRISTAN_DA_CUNHA", Iso3166 "SH" "SHN" "654");
  ("SAINT_KITTS_AND_NEVIS", Iso3166 "KN" "KNA" "659");
  ("SAINT_LUCIA", Iso3166 "LC" "LCA" "662");
  ("SAINT_MARTIN", Iso3166 "MF" "MAF" "663");
  ("SAINT_PIERRE_AND_MIQUELON", Iso3166 "PM" "SPM" "666");
  ("SAINT_VINCENT_AND_THE_GRENADINES", Iso3166 "VC" "VCT" "670");
  ("SAMOA", Iso3166 "WS" "WSM" "882");
  ("SAN_MARINO", Iso3166 "SM" "SMR" "674");
  ("SAO_TOME_AND_PRINCIPE", Iso3166 "ST" "STP" "678");
  ("SAUDI_ARABIA", Iso3166 "SA" "SAU" "682");
  ("SENEGAL", Iso3166 "SN" "SEN" "686");
  ("SERBIA", Iso3166 "RS" "SRB" "688");
  ("SEYCHELLES", Iso3166 "SC" "SYC" "690");
  ("SIERRA_LEONE", Iso3166 "SL" "SLE" "694");
  ("SINGAPORE", Iso3166 "SG" "SGP" "702");
  ("SINT_MAARTEN", Iso3166 "SX" "SXM" "534");
  ("SLOVAKIA", Iso3166 "SK" "SVK" "703");
  ("SLOVENIA", Iso3166 "SI" "SVN" "705");
  ("SOLOMON_ISLANDS", Iso3166 "SB" "SLB" "090");
  ("SOMALIA", Iso3166 "SO" "SOM" "706");
  ("SOUTH_AFRICA", Iso3166 "ZA" "ZAF" "710");
  ("SOUTH_GEORGIA_AND_THE_SOUTH_SANDWICH_ISLANDS", Iso3166 "GS" "SGS" "239");
  ("SOUTH_SUDAN", Iso3166 "SS" "SSD" "728");
  ("SPAIN", Iso3166 "ES" "ESP" "724");
  ("SRI_LANKA", Iso3166 "LK" "LKA" "144");
  ("SUDAN", Iso3166 "SD" "SDN" "729");
  ("SURINAME", Iso3166 "SR" "SUR" "740");
  ("SVALBARD_AND_JAN_MAYEN", Iso3166 "SJ" "SJM" "744");
  ("SWEDEN", Iso3166 "SE" "SWE" "752");
  ("SWITZERLAND", Iso3166 "CH" "CHE" "756");
  ("SYRIAN_ARAB_REPUBLIC", Iso3166 "SY" "SYR" "760");
  ("TAIWAN", Iso3166 "TW" "TWN" "158");
  ("TAJIKISTAN", Iso3166 "TJ" "TJK" "762");
  ("TANZANIA", Iso3166 "TZ" "TZA" "834");
  ("THAILAND", Iso3166 "TH" "THA" "764");
  ("TIMOR_LESTE", Iso3166 "TL" "TLS" "626");
  ("TOGO", Iso3166 "TG" "TGO" "768");
  ("TOKELAU", Iso3166 "TK" "TKL" "772");
  ("TONGA", Iso3166 "TO" "TON" "776");
  ("TRINIDAD_AND_TOBAGO", Iso3166 "TT" "TTO" "780");
  ("TUNISIA", Iso3166 "TN" "TUN" "788");
  ("TURKEY", Iso3166 "TR" "TUR" "792");
  ("TURKMENISTAN", Iso3166 "TM" "TKM" "795");
  ("TURKS_AND_CAICOS_ISLANDS", Iso3166 "TC" "TCA" "796");
  ("TUVALU", Iso3166 "TV" "TUV" "798");
  ("UGANDA", Iso3166 "UG" "UGA" "800");
  ("UKRAINE", Iso3166 "UA" "UKR" "804");
  ("UNITED_ARAB_EMIRATES", Iso3166 "AE" "ARE" "784");
  ("UNITED_KINGDOM_OF_GREAT_BRITAIN_AND_NORTHERN_IRELAND", Iso3166 "GB" "GBR" "826");
  ("UNITED_STATES_OF_AMERICA", Iso3166 "US" "USA" "840");
  ("UNITED_STATES_MINOR_OUTLYING_ISLANDS", Iso3166 "UM" "UMI" "581");
  ("URUGUAY", Iso3166 "UY" "URY" "858");
  ("UZBEKISTAN", Iso3166 "UZ" "UZB" "860");
  ("VANUATU", Iso3166 "VU" "VUT" "548");
  ("VENEZUELA", Iso3166 "VE" "VEN" "862");
  ("VIETNAM", Iso3166 "VN" "VNM" "704");
  ("VIRGIN_ISLANDS_BRITISH", Iso3166 "VG" "VGB" "092");
  ("VIRGIN_ISLANDS_US", Iso3166 "VI" "VIR" "850");
  ("WALLIS_AND_FUTUNA", Iso3166 "WF" "WLF" "876");
  ("WESTERN_SAHARA", Iso3166 "EH" "ESH" "732");
  ("YEMEN", Iso3166 "YE" "YEM" "887");
  ("ZAMBIA", Iso3166 "ZM" "ZMB" "894");
  ("ZIMBABWE", Iso3166 "ZW" "ZWE" "716")].
(** iso_10383.rs 95-2711: the constants; city and description are left out *)
Definition venues : list venue := [
  Venue "DRSP" "DRSP" "GB" Operating Active;
  Venue "XCNQ" "XCNQ" "CA" Operating Active;
  Venue "PURE" "XCNQ" "CA" Segment Active;
  Venue "ZODM" "ZODM" "GB" Operating Active;
  Venue "FNFX" "BGCF" "US" Segment Active;
  Venue "NORX" "NORX" "NO" Operating Active;
  Venue "POSE" "POSE" "ES" Operating Active;
  Venue "PUND" "PUND" "US" Operating Active;
  Venue "UCBG" "UCBG" "BG" Operating Active;
  Venue "NZFX" "XASX" "AU" Segment Active;
  Venue "XOCH" "XOCH" "US" Operating Expired;
  Venue "BBLX" "BBLX" "SG" Operating Active;
  Venue "BACR" "BAIP" "HK" Segment Active;
  Venue "SPBE" "SPBE" "RU" Operating Active;
  Venue "OTCM" "OTCM" "US" Operating Active;
  Venue "STUF" "XSTU" "DE" Segment Active;
  Venue "XSTP" "XSTU" "DE" Segment Active;
  Venue "STUE" "XSTU" "DE" Segment Active;
  Venue "FREX" "FREX" "US" Operating Active;
  Venue "HCER" "HMTF" "IT" Segment Active;
  Venue "IDXM" "IDXM" "US" Operating Active;
  Venue "MBCP" "MBCP" "PT" Operating Active;
  Venue "GMBG" "MBUL" "BG" Segment Active;
  Venue "OCEA" "OCEA" "US" Operating Active;
  Venue "OSDS" "OSDS" "HK" Operating Active;
  Venue "OSSG" "OSSG" "SG" Operating Active;
  Venue "RR4G" "RR4G" "NL" Operating Active;
  Venue "TRUK" "TRUK" "GB" Operating Active;
  Venue "UGEN" "UGEN" "GB" Operating Active;
  Venue "XGLO" "XWAR" "PL" Segment Active;
  Venue "WIND" "XWAR" "PL" Segment Active;
  Venue "CNOD" "CNOD" "SG" Operating Active;
  Venue "BGLU" "BGLU" "LU" Operating Active;
  Venue "FNIX" "GFAM" "US" Segment Active;
  Venue "LATG" "GFAM" "US" Segment Active;
  Venue "GFAM" "GFAM" "US" Operating Active;
  Venue "TMCY" "TMCY" "CY" Operating Active;
  Venue "UBEC" "UBEC" "US" Operating Active;
  Venue "ENSL" "ESLO" "FR" Segment Active;
  Venue "ESLO" "ESLO" "FR" Operating Active;
  Venue "IOTF" "IOTF" "GB" Operating Active;
  Venue "SEBA" "SEBA" "DE" Operating Active;
  Venue "UBIM" "UBIM" "IT" Operating Expired;
  Venue "XUBS" "XUBS" "GB" Operating Expired;
  Venue "XUMP" "XUBS" "GB" Segment Expired;
  Venue "AMLG" "AMLG" "US" Operating Expired;
  Venue "BRED" "BRED" "FR" Operating Active;
  Venue "DBMO" "DBAG" "DE" Segment Active;
  Venue "DBLN" "DBAG" "DE" Segment Active;
  Venue "DBIX" "DBIX" "GB" Operating Expired;
  Venue "RUSX" "RUSX" "RU" Operating Active;
  Venue "UNGB" "UNGB" "GB" Operating Active;
  Venue "XLQC" "XLQC" "AU" Operating Active;
  Venue "XMOS" "XMOS" "RU" Operating Active;
  Venue "ABXX" "VMEX" "AE" Segment Active;
  Venue "CFIC" "CFIC" "GB" Operating Active;
  Venue "HBFR" "HBFR" "FR" Operating Active;
  Venue "KLSH" "KLSH" "US" Operating Active;
  Venue "MUDX" "MUDX" "JP" Operating Active;
  Venue "TRAX" "TRAX" "GB" Operating Active;
  Venue "TRNL" "TRNL" "NL" Operating Active;
  Venue "XPET" "XPET" "RU" Operating Active;
  Venue "LEVL" "LEVL" "US" Operating Active;
  Venue "EBXV" "LEVL" "US" Segment Active;
  Venue "FXRS" "RMTF" "IE" Segment Active;
  Venue "FXPS" "THRE" "US" Segment Active;
  Venue "XBIS" "XBAB" "BB" Segment Active;
  Venue "STRM" "STRM" "US" Operating Active;
  Venue "ABNC" "ABNC" "NL" Operating Active;
  Venue "BNPC" "BNPC" "US" Operating Active;
  Venue "PBGR" "PBGR" "GR" Operating Active;
  Venue "SIDX" "SIDX" "IE" Operating Active;
  Venue "SIFX" "SIFX" "GB" Operating Active;
  Venue "TEUR" "TEUR" "ES" Operating Active;
  Venue "TPEE" "TPIC" "FR" Segment Active;
  Venue "AILT" "AILT" "IE" Operating Active;
  Venue "ARAX" "ARAX" "GB" Operating Active;
  Venue "CGXS" "CGXS" "US" Operating Active;
  Venue "EQOC" "EQOS" "SG" Segment Active;
  Venue "EQOD" "EQOS" "SG" Segment Active;
  Venue "AQED" "AQEU" "FR" Segment Active;
  Venue "EIXE" "AQXE" "GB" Segment Active;
  Venue "HPCS" "HPCX" "FR" Segment Active;
  Venue "MIDC" "MIDC" "AE" Operating Active;
  Venue "RABL" "RABL" "GB" Operating Active;
  Venue "RMMS" "RMMS" "ZA" Operating Active;
  Venue "RMMX" "RMMS" "ZA" Segment Active;
  Venue "NOCO" "XSTO" "SE" Segment Expired;
  Venue "MABX" "BMEX" "ES" Segment Active;
  Venue "CECA" "CECA" "ES" Operating Active;
  Venue "DBDC" "DBIX" "GB" Segment Expired;
  Venue "DBSE" "DBIX" "GB" Segment Expired;
  Venue "DBCX" "DBIX" "GB" Segment Expired;
  Venue "DBCR" "DBIX" "GB" Segment Expired;
  Venue "HPCO" "HPCX" "FR" Segment Active;
  Venue "ICOR" "ICOT" "FR" Segment Active;
  Venue "JNSI" "JNSI" "NL" Operating Active;
  Venue "TPER" "TPEU" "FR" Segment Active;
  Venue "XSDX" "XSWX" "CH" Segment Active;
  Venue "XSWX" "XSWX" "CH" Operating Active;
  Venue "XDLP" "XSWX" "CH" Segment Active;
  Venue "XSWM" "XSWX" "CH" Segment Active;
  Venue "XSLS" "XSWX" "CH" Segment Expired;
  Venue "XSEB" "XSWX" "CH" Segment Active;
  Venue "XBTR" "XSWX" "CH" Segment Active;
  Venue "XVTX" "XSWX" "CH" Segment Expired;
  Venue "XQOD" "XSWX" "CH" Segment Active;
  Venue "XQMH" "XSWX" "CH" Segment Active;
  Venue "BNPX" "BNPX" "JP" Operating Active;
  Venue "BTRL" "BTRL" "RO" Operating Active;
  Venue "NTUK" "NTUK" "GB" Operating Active;
  Venue "EQOS" "EQOS" "SG" Operating Active;
  Venue "LMNR" "LMNR" "EE" Operating Active;
  Venue "CEDX" "CCRM" "NL" Segment Active;
  Venue "EQCA" "EQCA" "CA" Operating Active;
  Venue "EQUS" "EQUS" "US" Operating Active;
  Venue "EVOL" "EVOL" "GB" Operating Active;
  Venue "STEE" "NORX" "NO" Segment Expired;
  Venue "BULK" "NORX" "NO" Segment Expired;
  Venue "RBCC" "RBCC" "FR" Operating Active;
  Venue "BEBG" "BEBG" "BG" Operating Active;
  Venue "CBKS" "CBKA" "DE" Segment Active;
  Venue "XTXD" "XTXD" "US" Operating Active;
  Venue "SSWM" "SSWM" "DE" Operating Expired;
  Venue "XOAS" "XOSL" "NO" Segment Active;
  Venue "XOSL" "XOSL" "NO" Operating Active;
  Venue "SGA2" "SGAS" "US" Segment Active;
  Venue "EWRM" "TMEX" "TR" Segment Active;
  Venue "MERK" "XOSL" "NO" Segment Active;
  Venue "XOBD" "XOSL" "NO" Segment Active;
  Venue "BSAB" "BSAB" "ES" Operating Active;
  Venue "BSPL" "BSPL" "GB" Operating Active;
  Venue "BSTX" "BSTX" "US" Operating Active;
  Venue "XNOM" "XNOM" "LI" Operating Active;
  Venue "BBOK" "BARX" "US" Segment Active;
  Venue "BLFX" "BLBB" "DE" Segment Active;
  Venue "OLBB" "OLBB" "DE" Operating Active;
  Venue "SGMU" "SGMU" "FR" Operating Active;
  Venue "AFEX" "AFEX" "MU" Operating Active;
  Venue "BNPL" "BNPL" "GB" Operating Updated;
  Venue "CAPL" "CAPL" "PL" Operating Active;
  Venue "CCMX" "CCMX" "US" Operating Active;
  Venue "ONEC" "CGMI" "US" Segment Active;
  Venue "MBSI" "MSBI" "GB" Segment Active;
  Venue "MSBI" "MSBI" "GB" Operating Active;
  Venue "SGMV" "SGMU" "FR" Segment Active;
  Venue "SGMW" "SGMU" "FR" Segment Active;
  Venue "T212" "T212" "BG" Operating Active;
  Venue "TMEX" "TMEX" "TR" Operating Active;
  Venue "XCBO" "XCBO" "US" Operating Active;
  Venue "CONE" "XCBO" "US" Segment Expired;
  Venue "CTWO" "XCBO" "US" Segment Expired;
  Venue "C2OX" "XCBO" "US" Segment Active;
  Venue "PEPQ" "PEPW" "SE" Segment Active;
  Venue "PEPY" "PEPW" "SE" Segment Active;
  Venue "PEPH" "PEPW" "SE" Segment Active;
  Venue "PEPM" "PEPW" "SE" Segment Active;
  Venue "XPOM" "XPOM" "PG" Operating Active;
  Venue "GROW" "BMEX" "ES" Segment Active;
  Venue "CLST" "CLST" "US" Operating Active;
  Venue "LLAT" "LLAT" "AT" Operating Active;
  Venue "EPRD" "MIHI" "US" Segment Active;
  Venue "GSPL" "GSAL" "HK" Segment Active;
  Venue "IMMH" "IMMH" "IT" Operating Active;
  Venue "AQSE" "AQSE" "GB" Operating Active;
  Venue "ENMS" "ENMS" "SG" Operating Active;
  Venue "FAST" "FAST" "US" Operating Active;
  Venue "TLCM" "ICOT" "FR" Segment Active;
  Venue "ILCM" "IOTF" "GB" Segment Active;
  Venue "LELE" "LELE" "GB" Operating Active;
  Venue "MCXX" "MCXX" "IN" Operating Active;
  Venue "MEMD" "MEMX" "US" Segment Active;
  Venue "EBSO" "NEXS" "GB" Segment Active;
  Venue "PEPW" "PEPW" "SE" Operating Active;
  Venue "WFLB" "WFLB" "GB" Operating Active;
  Venue "WFSE" "WFSE" "FR" Operating Expired;
  Venue "VNDM" "WSAG" "US" Segment Active;
  Venue "WABR" "WSAG" "US" Segment Active;
  Venue "XSCA" "XSES" "SG" Segment Active;
  Venue "TMCC" "IFUS" "US" Segment Active;
  Venue "EDBT" "XDUB" "IE" Segment Active;
  Venue "EDGL" "XDUB" "IE" Segment Active;
  Venue "ETLX" "XMIL" "IT" Segment Active;
  Venue "BASP" "BAIP" "HK" Segment Active;
  Venue "BTEQ" "BTEC" "US" Segment Active;
  Venue "EQSE" "EQIE" "IE" Segment Active;
  Venue "VABD" "IFUS" "US" Segment Active;
  Venue "IMCC" "IFUS" "US" Segment Active;
  Venue "NBFL" "NBFL" "GB" Operating Active;
  Venue "NEXT" "NEXX" "GB" Segment Expired;
  Venue "NEXN" "NEXX" "GB" Segment Expired;
  Venue "NEXF" "NEXX" "GB" Segment Expired;
  Venue "NEXX" "NEXX" "GB" Operating Expired;
  Venue "NEXG" "NEXX" "GB" Segment Expired;
  Venue "NEXL" "NEXX" "GB" Segment Expired;
  Venue "NEXD" "NEXX" "GB" Segment Expired;
  Venue "XNDX" "XNGM" "SE" Segment Expired;
  Venue "XNMR" "XNGM" "SE" Segment Expired;
  Venue "MAXD" "MAXD" "GB" Operating Active;
  Venue "BTBS" "BTBS" "SG" Operating Active;
  Venue "AXSI" "AXSI" "FI" Operating Expired;
  Venue "SKBB" "SKBB" "SI" Operating Active;
  Venue "BDSK" "BDSK" "BG" Operating Active;
  Venue "DEXE" "DEXE" "AE" Operating Active;
  Venue "OTPR" "OTPR" "RO" Operating Active;
  Venue "SBIU" "SBIJ" "JP" Segment Active;
  Venue "XSBI" "SBIJ" "JP" Segment Active;
  Venue "SBIV" "SBIJ" "JP" Segment Active;
  Venue "SBIJ" "SBIJ" "JP" Operating Active;
  Venue "XOTP" "XOTP" "HR" Operating Active;
  Venue "EQSL" "EQLD" "GB" Segment Active;
  Venue "JSER" "XJSE" "ZA" Segment Active;
  Venue "XBVM" "XBVM" "MZ" Operating Active;
  Venue "HESP" "HEMO" "GR" Segment Active;
  Venue "HEDE" "HEMO" "GR" Segment Active;
  Venue "MAQE" "MAQE" "IE" Operating Active;
  Venue "MEMX" "MEMX" "US" Operating Active;
  Venue "PARK" "PARK" "PL" Operating Active;
  Venue "PJCX" "PIPR" "US" Segment Active;
  Venue "PIPR" "PIPR" "US" Operating Active;
  Venue "SKYX" "SKYX" "GB" Operating Active;
  Venue "CIMA" "CIMD" "ES" Segment Active;
  Venue "GLOM" "GLOM" "AE" Operating Active;
  Venue "TRAI" "TRAI" "US" Operating Active;
  Venue "XZAM" "XZAG" "HR" Segment Expired;
  Venue "CBOE" "CBOE" "CH" Operating Active;
  Venue "CGEE" "CGMD" "DE" Segment Active;
  Venue "CGEC" "CGMD" "DE" Segment Active;
  Venue "CGME" "CGML" "GB" Segment Expired;
  Venue "CGMC" "CGML" "GB" Segment Active;
  Venue "COHR" "COHR" "US" Operating Active;
  Venue "NEXY" "EBSN" "NL" Segment Expired;
  Venue "STFU" "STFU" "US" Operating Expired;
  Venue "STFX" "STFX" "US" Operating Active;
  Venue "TRQS" "TRQX" "GB" Segment Expired;
  Venue "XICB" "XICB" "CH" Operating Expired;
  Venue "XLCH" "XLCH" "GB" Operating Active;
  Venue "CLCH" "XLCH" "GB" Segment Active;
  Venue "BUYN" "XLCH" "GB" Segment Active;
  Venue "ATDF" "ATDF" "US" Operating Expired;
  Venue "BGHX" "BGHX" "BG" Operating Active;
  Venue "CORE" "CGMI" "US" Segment Expired;
  Venue "CICX" "CGMI" "US" Segment Expired;
  Venue "CSAS" "CSAS" "CZ" Operating Active;
  Venue "LTSE" "LTSE" "US" Operating Active;
  Venue "MALM" "MASG" "SG" Segment Expired;
  Venue "XPSF" "XEEE" "DE" Segment Active;
  Venue "XPOT" "XEEE" "DE" Segment Active;
  Venue "XFEX" "XFEX" "AU" Operating Active;
  Venue "CALH" "CALH" "US" Operating Active;
  Venue "OMIP" "OMIP" "PT" Operating Active;
  Venue "XLIS" "XLIS" "PT" Operating Active;
  Venue "CSLP" "CRED" "US" Segment Expired;
  Venue "DAUK" "DAUK" "GB" Operating Active;
  Venue "BSLB" "BSLB" "GB" Operating Active;
  Venue "CFIL" "CFIL" "IE" Operating Active;
  Venue "CGMU" "CGML" "GB" Segment Active;
  Venue "CSCL" "CRED" "US" Segment Active;
  Venue "CSVW" "CRED" "US" Segment Active;
  Venue "RBCM" "RBCM" "GB" Operating Active;
  Venue "THRE" "THRE" "US" Operating Active;
  Venue "WEED" "WEED" "US" Operating Expired;
  Venue "XWEE" "WEED" "US" Segment Expired;
  Venue "BKKT" "BKKT" "US" Operating Active;
  Venue "UKRE" "ICPM" "GB" Segment Active;
  Venue "UKOR" "ICPM" "GB" Segment Active;
  Venue "IUOB" "IOTF" "GB" Segment Active;
  Venue "TUOB" "TPSO" "GB" Segment Active;
  Venue "XPUS" "XPUS" "US" Operating Active;
  Venue "BMLS" "BMLI" "IE" Segment Active;
  Venue "BMLI" "BMLI" "IE" Operating Active;
  Venue "BMSI" "BMLX" "IE" Segment Expired;
  Venue "BMLX" "BMLX" "IE" Operating Expired;
  Venue "SGMZ" "SGMX" "GB" Segment Active;
  Venue "PFXD" "TRDE" "GB" Segment Active;
  Venue "TRQC" "TRQX" "GB" Segment Active;
  Venue "GSBX" "GSIL" "GB" Segment Expired;
  Venue "ITGL" "ITGL" "IE" Operating Active;
  Venue "XAMM" "XAMM" "JO" Operating Active;
  Venue "AMNL" "XAMM" "JO" Segment Active;
  Venue "BETA" "XBUD" "HU" Segment Active;
  Venue "VFGB" "VFGB" "GB" Operating Active;
  Venue "VFUK" "VFUK" "GB" Operating Expired;
  Venue "SEBL" "SEBL" "LT" Operating Active;
  Venue "XPOL" "VIUK" "GB" Segment Active;
  Venue "XPAL" "VIUK" "GB" Segment Active;
  Venue "VIUK" "VIUK" "GB" Operating Active;
  Venue "ASPI" "INCR" "US" Segment Active;
  Venue "ASMT" "INCR" "US" Segment Active;
  Venue "ASPN" "INCR" "US" Segment Active;
  Venue "CISD" "XNYS" "US" Segment Active;
  Venue "CDSI" "CSDA" "DE" Segment Active;
  Venue "RESF" "EBSN" "NL" Segment Active;
  Venue "EBSF" "EBSN" "NL" Segment Active;
  Venue "BBSX" "BBSX" "GB" Operating Active;
  Venue "JLSI" "JLSI" "GB" Operating Expired;
  Venue "SCOT" "SCOT" "GB" Operating Active;
  Venue "XDEX" "XSTU" "DE" Segment Active;
  Venue "DOWE" "DOWM" "ES" Segment Active;
  Venue "SPEX" "SPEX" "DE" Operating Active;
  Venue "IFAD" "IFAD" "AE" Operating Active;
  Venue "JLQD" "JLQD" "US" Operating Active;
  Venue "LAMP" "LAMP" "US" Operating Active;
  Venue "RCMA" "RCMA" "US" Operating Active;
  Venue "WOPO" "XWAR" "PL" Segment Expired;
  Venue "IEBS" "EBSN" "NL" Segment Active;
  Venue "ERIS" "ERIS" "US" Operating Expired;
  Venue "MKTF" "MKTF" "FR" Operating Active;
  Venue "MKAA" "MTXX" "US" Segment Active;
  Venue "XSGB" "XSGB" "GB" Operating Active;
  Venue "YKNA" "YKNA" "US" Operating Active;
  Venue "CGET" "CGMD" "DE" Segment Active;
  Venue "CSDA" "CSDA" "DE" Operating Active;
  Venue "DOWM" "DOWM" "ES" Operating Active;
  Venue "GSXC" "GSXC" "CN" Operating Active;
  Venue "GSXK" "GSXK" "KR" Operating Active;
  Venue "GSXT" "GSXT" "TW" Operating Active;
  Venue "VAGM" "VAGM" "GB" Operating Active;
  Venue "XEUB" "XETR" "DE" Segment Expired;
  Venue "BMCM" "BMCM" "GB" Operating Active;
  Venue "EWSM" "EWSM" "MT" Operating Expired;
  Venue "GXGR" "GXGR" "DK" Operating Expired;
  Venue "GXGM" "GXGR" "DK" Segment Expired;
  Venue "GXGF" "GXGR" "DK" Segment Expired;
  Venue "NSME" "XNGM" "SE" Segment Active;
  Venue "ABFI" "ABFI" "GR" Operating Active;
  Venue "BEUP" "CCXE" "NL" Segment Active;
  Venue "BEUF" "CCXE" "NL" Segment Expired;
  Venue "CEUD" "CCXE" "NL" Segment Active;
  Venue "BEUD" "CCXE" "NL" Segment Expired;
  Venue "CEUX" "CCXE" "NL" Segment Active;
  Venue "CEUO" "CCXE" "NL" Segment Active;
  Venue "BEUE" "CCXE" "NL" Segment Expired;
  Venue "DASH" "DASH" "US" Operating Active;
  Venue "MISX" "MISX" "RU" Operating Active;
  Venue "XBND" "XBUD" "HU" Segment Active;
  Venue "BLKX" "XINS" "US" Segment Active;
  Venue "PLPD" "XWAR" "PL" Segment Active;
  Venue "BAJD" "BAJD" "JP" Operating Active;
  Venue "NMSX" "NMRJ" "JP" Segment Active;
  Venue "XLOD" "XLON" "GB" Segment Expired;
  Venue "LAFX" "LAVA" "US" Segment Expired;
  Venue "NEOE" "NEOE" "CA" Operating Active;
  Venue "NEOD" "NEOE" "CA" Segment Active;
  Venue "NEON" "NEOE" "CA" Segment Active;
  Venue "NEOC" "NEOE" "CA" Segment Active;
  Venue "TRPX" "TRPX" "SC" Operating Active;
  Venue "KOME" "KOME" "CZ" Operating Active;
  Venue "TRCX" "TRCX" "US" Operating Active;
  Venue "ERBX" "ERBX" "GR" Operating Active;
  Venue "FLTR" "FLWX" "NL" Segment Active;
  Venue "IBER" "IBER" "ES" Operating Active;
  Venue "ALLT" "ALLT" "ES" Operating Active;
  Venue "BATE" "BCXE" "GB" Segment Active;
  Venue "BATF" "BCXE" "GB" Segment Active;
  Venue "BATD" "BCXE" "GB" Segment Active;
  Venue "BILU" "BILU" "LU" Operating Active;
  Venue "BTQE" "BTAM" "NL" Segment Active;
  Venue "BTQG" "BTEE" "GB" Segment Active;
  Venue "CBSK" "CBSK" "SK" Operating Active;
  Venue "CODA" "CODA" "US" Operating Active;
  Venue "PDQX" "PDQX" "US" Operating Expired;
  Venue "SMBD" "SMBD" "DE" Operating Active;
  Venue "STFL" "STFL" "GB" Operating Active;
  Venue "XALT" "XALT" "GB" Operating Active;
  Venue "EBRA" "XBRA" "SK" Segment Active;
  Venue "XCAN" "XBSE" "RO" Segment Active;
  Venue "XRMO" "XRMZ" "CZ" Segment Active;
  Venue "XNCO" "XWAR" "PL" Segment Active;
  Venue "KNMX" "KNIG" "US" Segment Expired;
  Venue "SAGE" "SAGE" "US" Operating Active;
  Venue "ARCH" "ARCH" "GB" Operating Active;
  Venue "EXPM" "OTCM" "US" Segment Active;
  Venue "TNLK" "XBRU" "BE" Segment Active;
  Venue "XDRK" "XTSE" "CA" Segment Active;
  Venue "VDRK" "XTSX" "CA" Segment Active;
  Venue "GFPO" "AURB" "FR" Segment Active;
  Venue "JPMS" "JPMS" "US" Operating Active;
  Venue "SNUK" "SNUK" "GB" Operating Active;
  Venue "ARKX" "ARKX" "US" Operating Active;
  Venue "PUMX" "PUMA" "US" Segment Active;
  Venue "SVXI" "SVXI" "VC" Operating Active;
  Venue "VWDA" "VWDX" "DE" Segment Active;
  Venue "XALS" "XALS" "AL" Operating Active;
  Venue "BGFU" "BGUK" "GB" Segment Active;
  Venue "CGMG" "CGMG" "GB" Operating Active;
  Venue "PUMA" "PUMA" "US" Operating Active;
  Venue "MCZK" "XMTS" "GB" Segment Expired;
  Venue "HUNG" "XMTS" "GB" Segment Expired;
  Venue "EMTS" "XMTS" "GB" Segment Expired;
  Venue "MTSA" "XMTS" "GB" Segment Expired;
  Venue "GMTS" "XMTS" "GB" Segment Expired;
  Venue "MTSG" "XMTS" "GB" Segment Expired;
  Venue "IMTS" "XMTS" "GB" Segment Expired;
  Venue "RMTS" "XMTS" "GB" Segment Expired;
  Venue "AMTS" "XMTS" "GB" Segment Expired;
  Venue "PORT" "XMTS" "GB" Segment Expired;
  Venue "SLKK" "XMTS" "GB" Segment Expired;
  Venue "VMTS" "XMTS" "GB" Segment Expired;
  Venue "SMTS" "XMTS" "GB" Segment Expired;
  Venue "EBHU" "EBHU" "HU" Operating Active;
  Venue "EBSI" "EBSN" "NL" Segment Expired;
  Venue "RESE" "EBSN" "NL" Segment Expired;
  Venue "EBSD" "EBSN" "NL" Segment Expired;
  Venue "EUSP" "EUCH" "CH" Segment Expired;
  Venue "EUCH" "EUCH" "CH" Operating Expired;
  Venue "EURM" "EUCH" "CH" Segment Expired;
  Venue "EUSC" "EUCH" "CH" Segment Expired;
  Venue "FNUK" "FNUK" "GB" Operating Active;
  Venue "XMFX" "BMEX" "ES" Segment Active;
  Venue "TRFW" "RTSL" "GB" Segment Active;
  Venue "UCHU" "UCHU" "HU" Operating Active;
  Venue "CBNL" "CBNL" "GB" Operating Active;
  Venue "FTUS" "FTUS" "US" Operating Active;
  Venue "TEEG" "TPSO" "GB" Segment Expired;
  Venue "BGUK" "BGUK" "GB" Operating Active;
  Venue "CLVE" "CLVE" "GB" Operating Active;
  Venue "NLAX" "CPGX" "US" Segment Active;
  Venue "CPGX" "CPGX" "US" Operating Active;
  Venue "CEPL" "CEPL" "IE" Operating Active;
  Venue "CEPU" "CEPU" "GB" Operating Active;
  Venue "DBAB" "DBAB" "US" Operating Active;
  Venue "OTCN" "OTCN" "US" Operating Active;
  Venue "RTSL" "RTSL" "GB" Operating Active;
  Venue "TRAL" "RTSL" "GB" Segment Updated;
  Venue "TDGF" "TDGF" "IE" Operating Active;
  Venue "UBSB" "UBSB" "GB" Operating Active;
  Venue "UBSD" "UBSD" "DE" Operating Expired;
  Venue "UBSE" "UBSL" "GB" Segment Expired;
  Venue "UBSI" "UBSL" "DE" Segment Active;
  Venue "UBSL" "UBSL" "DE" Operating Active;
  Venue "WBGF" "XWBO" "AT" Segment Expired;
  Venue "XETV" "XETR" "DE" Segment Active;
  Venue "XETW" "XETR" "DE" Segment Active;
  Venue "XETU" "XETR" "DE" Segment Active;
  Venue "FRAV" "XFRA" "DE" Segment Active;
  Venue "FRAW" "XFRA" "DE" Segment Active;
  Venue "FRAU" "XFRA" "DE" Segment Active;
  Venue "BFPT" "BFPT" "PT" Operating Active;
  Venue "CONC" "CONC" "HU" Operating Active;
  Venue "IFBX" "IFBX" "IR" Operating Active;
  Venue "IPXW" "IPSX" "GB" Segment Active;
  Venue "ZERO" "SCXO" "US" Segment Active;
  Venue "SCXS" "SCXO" "US" Segment Active;
  Venue "SCXO" "SCXO" "US" Operating Active;
  Venue "SCXM" "SCXO" "US" Segment Active;
  Venue "SYFX" "SYFX" "SG" Operating Active;
  Venue "SSIL" "SSIL" "GB" Operating Active;
  Venue "TPIR" "TPIC" "FR" Segment Active;
  Venue "XCHI" "XNYS" "US" Segment Active;
  Venue "XCIS" "XNYS" "US" Segment Active;
  Venue "MANL" "MANL" "NL" Operating Active;
  Venue "CELP" "CSOB" "CZ" Segment Active;
  Venue "BETX" "BETX" "GB" Operating Active;
  Venue "BTLX" "BTLX" "GB" Operating Active;
  Venue "CCEX" "CCEX" "KZ" Operating Active;
  Venue "ZBUL" "XBUL" "BG" Segment Active;
  Venue "IMSB" "ICPM" "GB" Segment Active;
  Venue "AQEU" "AQEU" "FR" Operating Active;
  Venue "AQEA" "AQEU" "FR" Segment Active;
  Venue "AQXA" "AQXE" "GB" Segment Active;
  Venue "AQXE" "AQXE" "GB" Operating Active;
  Venue "BKDM" "BKDM" "IE" Operating Active;
  Venue "BNLD" "BNLD" "IT" Operating Active;
  Venue "CAVD" "CAVD" "NL" Operating Active;
  Venue "GIPB" "GIPB" "FR" Operating Active;
  Venue "GSPX" "GIPB" "FR" Segment Active;
  Venue "ICPM" "ICPM" "GB" Operating Active;
  Venue "IMGI" "ICPM" "GB" Segment Active;
  Venue "IMRD" "ICPM" "GB" Segment Active;
  Venue "IMET" "ICPM" "GB" Segment Active;
  Venue "IMGB" "ICPM" "GB" Segment Active;
  Venue "IMMM" "ICPM" "GB" Segment Active;
  Venue "IMFD" "ICPM" "GB" Segment Active;
  Venue "IMCE" "ICPM" "GB" Segment Active;
  Venue "IMED" "ICPM" "GB" Segment Active;
  Venue "JLEU" "JLEU" "NL" Operating Active;
  Venue "SMFF" "SMFF" "DE" Operating Active;
  Venue "SPTR" "SPTR" "NO" Operating Active;
  Venue "ELXE" "ELXE" "FR" Operating Active;
  Venue "SCAG" "SCAG" "DE" Operating Active;
  Venue "SGAS" "SGAS" "US" Operating Active;
  Venue "SMFE" "SMFE" "US" Operating Active;
  Venue "TRXE" "TRXE" "FR" Operating Active;
  Venue "JBUL" "XBUL" "BG" Segment Active;
  Venue "MHBE" "MHBE" "NL" Operating Active;
  Venue "CSGI" "CSGI" "IE" Operating Active;
  Venue "EUCC" "EUCC" "IE" Operating Active;
  Venue "BLEQ" "BLBB" "DE" Segment Active;
  Venue "BREA" "BREA" "IT" Operating Active;
  Venue "MCAD" "MTSO" "IT" Segment Active;
  Venue "EBMX" "MTSO" "IT" Segment Active;
  Venue "ENXB" "XBRU" "BE" Segment Expired;
  Venue "XMSM" "XDUB" "IE" Segment Active;
  Venue "XESM" "XDUB" "IE" Segment Active;
  Venue "UKGD" "XMTS" "GB" Segment Active;
  Venue "XTXE" "XTXE" "FR" Operating Active;
  Venue "BLUE" "BLUE" "US" Operating Active;
  Venue "BTAM" "BTAM" "NL" Operating Active;
  Venue "CABV" "CABV" "NL" Operating Active;
  Venue "RFBK" "RFBK" "CZ" Operating Active;
  Venue "TOWR" "TOWR" "NL" Operating Active;
  Venue "GBUL" "XBUL" "BG" Segment Active;
  Venue "BPAS" "BPAS" "IT" Operating Expired;
  Venue "FLWX" "FLWX" "NL" Operating Active;
  Venue "TNLL" "XLDN" "GB" Segment Expired;
  Venue "BLUX" "BLUX" "LU" Operating Active;
  Venue "DBLX" "DBLX" "LU" Operating Active;
  Venue "DHLX" "DHLX" "LU" Operating Active;
  Venue "KHHU" "KHHU" "HU" Operating Active;
  Venue "MCID" "MCID" "IE" Operating Active;
  Venue "NCME" "NCME" "DE" Operating Active;
  Venue "TRQM" "TRQX" "GB" Segment Active;
  Venue "XBLK" "XPAR" "FR" Segment Active;
  Venue "IPNL" "IPNL" "NL" Operating Expired;
  Venue "ISWO" "ISWP" "NL" Segment Active;
  Venue "ISWP" "ISWP" "NL" Operating Active;
  Venue "ISWN" "ISWP" "NL" Segment Active;
  Venue "ISWT" "ISWP" "NL" Segment Active;
  Venue "MSEL" "MSEL" "IE" Operating Active;
  Venue "NCML" "NCML" "GB" Operating Active;
  Venue "FXRQ" "RMTF" "IE" Segment Active;
  Venue "FXFM" "RMTF" "IE" Segment Active;
  Venue "PBUL" "XBUL" "BG" Segment Active;
  Venue "XPUK" "XPUK" "GB" Operating Active;
  Venue "CSAG" "CSAG" "CH" Operating Active;
  Venue "XETF" "XPAR" "FR" Segment Active;
  Venue "GSEI" "GSBE" "DE" Segment Active;
  Venue "GSBE" "GSBE" "DE" Operating Active;
  Venue "HREU" "HREU" "IE" Operating Active;
  Venue "STSI" "STSI" "GB" Operating Expired;
  Venue "CREM" "CREM" "IT" Operating Active;
  Venue "DWFI" "DWFI" "US" Operating Active;
  Venue "BNPP" "BNPP" "PL" Operating Active;
  Venue "CBKC" "CBKA" "DE" Segment Active;
  Venue "CIBH" "CIBH" "HU" Operating Active;
  Venue "CSMD" "CSMD" "ES" Operating Active;
  Venue "SIMD" "CSMD" "ES" Segment Active;
  Venue "GMES" "GMES" "FR" Operating Active;
  Venue "GMEO" "GMES" "FR" Segment Active;
  Venue "KBLC" "KBLL" "LU" Segment Active;
  Venue "KBLS" "KBLL" "LU" Segment Active;
  Venue "KBLT" "KBLL" "LU" Segment Active;
  Venue "KBLL" "KBLL" "LU" Operating Active;
  Venue "MHBP" "MHBP" "FR" Operating Active;
  Venue "MHEU" "MHEU" "DE" Operating Active;
  Venue "UBCZ" "UBCZ" "CZ" Operating Active;
  Venue "XETS" "XETR" "DE" Segment Active;
  Venue "FRAS" "XFRA" "DE" Segment Active;
  Venue "ATLN" "ATLN" "CY" Operating Active;
  Venue "CEUE" "CCXE" "NL" Segment Expired;
  Venue "LBCW" "LBCW" "DE" Operating Active;
  Venue "VALX" "VUSA" "US" Segment Active;
  Venue "AGBP" "AGBP" "ES" Operating Active;
  Venue "CESI" "CSOB" "CZ" Segment Active;
  Venue "EBSN" "EBSN" "NL" Operating Active;
  Venue "ECEU" "ECEU" "NL" Operating Active;
  Venue "TPIO" "TPIC" "FR" Segment Active;
  Venue "TPIC" "TPIC" "FR" Operating Active;
  Venue "XTRD" "XTRD" "US" Operating Active;
  Venue "MLEX" "MLEX" "FR" Operating Active;
  Venue "MLER" "MLEX" "FR" Segment Active;
  Venue "MLES" "MLEX" "FR" Segment Active;
  Venue "MLIB" "MLIB" "GB" Operating Expired;
  Venue "DSME" "XCSE" "DK" Segment Active;
  Venue "FSME" "XHEL" "FI" Segment Active;
  Venue "XNFI" "XNAS" "US" Segment Active;
  Venue "ESPD" "XNAS" "US" Segment Expired;
  Venue "SSME" "XSTO" "SE" Segment Active;
  Venue "ATHL" "ATHL" "CY" Operating Active;
  Venue "BCSC" "BCSC" "CY" Operating Active;
  Venue "CFIF" "CFIF" "CY" Operating Active;
  Venue "JESI" "JEFE" "DE" Segment Active;
  Venue "JEFE" "JEFE" "DE" Operating Active;
  Venue "MHBL" "MHBL" "GB" Operating Active;
  Venue "NOWX" "NOWX" "FR" Operating Active;
  Venue "PKOP" "PKOP" "PL" Operating Active;
  Venue "VCRS" "VUSA" "US" Segment Active;
  Venue "VUSA" "VUSA" "US" Operating Active;
  Venue "VFMI" "VUSA" "US" Segment Active;
  Venue "ABAN" "ABAN" "ES" Operating Active;
  Venue "BRDS" "BRDE" "RO" Segment Active;
  Venue "EQIE" "EQIE" "IE" Operating Active;
  Venue "EQLD" "EQLD" "GB" Operating Active;
  Venue "GPBC" "GPBC" "CY" Operating Active;
  Venue "RTSX" "MISX" "RU" Segment Active;
  Venue "OHVO" "OHVO" "NL" Operating Active;
  Venue "RBCG" "RBCG" "DE" Operating Active;
  Venue "RMTF" "RMTF" "IE" Operating Active;
  Venue "UCBA" "UCBA" "AT" Operating Active;
  Venue "UCDE" "UCDE" "DE" Operating Active;
  Venue "UCIT" "UCIT" "IT" Operating Active;
  Venue "BRGA" "BRGA" "GB" Operating Active;
  Venue "XNOR" "XNOR" "FI" Operating Active;
  Venue "XNXD" "XNXC" "NL" Segment Active;
  Venue "BCMA" "BCMA" "ES" Operating Active;
  Venue "CSOB" "CSOB" "CZ" Operating Active;
  Venue "ICXR" "ICUR" "IE" Segment Active;
  Venue "ICUR" "ICUR" "IE" Operating Active;
  Venue "IFXC" "IFXC" "IE" Operating Active;
  Venue "IFXA" "IFXC" "IE" Segment Active;
  Venue "IFXR" "IFXC" "IE" Segment Active;
  Venue "MUSN" "MUSN" "NL" Operating Active;
  Venue "SPDX" "SPDX" "GB" Operating Active;
  Venue "MESI" "MSEU" "DE" Segment Active;
  Venue "NIBC" "NIBC" "NL" Operating Active;
  Venue "UICE" "UICE" "UA" Operating Active;
  Venue "XNDU" "XNDU" "UA" Operating Active;
  Venue "GBWB" "XSTO" "SE" Segment Active;
  Venue "ECSL" "ECSL" "GB" Operating Active;
  Venue "MSCX" "MSAX" "FR" Segment Expired;
  Venue "MSAX" "MSAX" "FR" Operating Expired;
  Venue "MSNT" "MSAX" "FR" Segment Expired;
  Venue "MSEU" "MSEU" "DE" Operating Active;
  Venue "TPIS" "TPIS" "GB" Operating Expired;
  Venue "BRDL" "BRDE" "RO" Segment Active;
  Venue "BRDE" "BRDE" "RO" Operating Active;
  Venue "CIBC" "CIBC" "GB" Operating Active;
  Venue "CIBP" "CIBP" "GB" Operating Active;
  Venue "FTFM" "FTFS" "CZ" Segment Active;
  Venue "FTFS" "FTFS" "CZ" Operating Active;
  Venue "CABK" "CABK" "ES" Operating Active;
  Venue "BARU" "CCRM" "NL" Segment Active;
  Venue "BEUO" "CCRM" "NL" Segment Active;
  Venue "BEUT" "CCRM" "NL" Segment Active;
  Venue "CCRM" "CCRM" "NL" Operating Active;
  Venue "CAPA" "CCXE" "NL" Segment Active;
  Venue "LISZ" "CCXE" "NL" Segment Active;
  Venue "CCXE" "CCXE" "NL" Operating Active;
  Venue "DEKA" "DEKA" "DE" Operating Active;
  Venue "IATS" "IBKR" "US" Segment Active;
  Venue "ICOT" "ICOT" "FR" Operating Active;
  Venue "IPXP" "IPSX" "GB" Segment Active;
  Venue "ISSI" "ISSI" "GB" Operating Active;
  Venue "JYSI" "JYSI" "DK" Operating Active;
  Venue "NWNV" "NWNV" "NL" Operating Active;
  Venue "OTPB" "OTPB" "HU" Operating Active;
  Venue "RBHU" "RBHU" "HU" Operating Active;
  Venue "RENC" "RENC" "CY" Operating Active;
  Venue "TPEU" "TPEU" "FR" Operating Active;
  Venue "WSIL" "WSIL" "GB" Operating Active;
  Venue "INGW" "INGW" "PL" Operating Active;
  Venue "MAKX" "MAKX" "GB" Operating Active;
  Venue "WSIN" "WSIN" "GB" Operating Active;
  Venue "BGFX" "BGSI" "DE" Segment Active;
  Venue "BGFI" "BGSI" "DE" Segment Active;
  Venue "SLHB" "SLHB" "AT" Operating Active;
  Venue "SIBC" "SIBC" "CY" Operating Active;
  Venue "WELN" "WELN" "GB" Operating Active;
  Venue "BMLB" "BMLB" "GB" Operating Active;
  Venue "WELX" "WELX" "US" Operating Expired;
  Venue "XSAT" "XSAT" "SE" Operating Active;
  Venue "BAIP" "BAIP" "HK" Operating Active;
  Venue "BAEP" "BAIP" "HK" Segment Active;
  Venue "DAVY" "DAVY" "IE" Operating Active;
  Venue "IECE" "ICEO" "GB" Segment Expired;
  Venue "IMCM" "ICPM" "GB" Segment Expired;
  Venue "IMCD" "ICPM" "GB" Segment Expired;
  Venue "LIGA" "LIGA" "DE" Operating Active;
  Venue "MBPL" "MBPL" "PL" Operating Active;
  Venue "TEMG" "TPEL" "GB" Segment Expired;
  Venue "TEOF" "TPEO" "GB" Segment Expired;
  Venue "TOMF" "TPES" "ES" Segment Expired;
  Venue "TEPG" "TPFR" "FR" Segment Expired;
  Venue "TEPX" "TPFR" "FR" Segment Expired;
  Venue "TEPR" "TPFR" "FR" Segment Expired;
  Venue "TEPM" "TPFR" "FR" Segment Expired;
  Venue "TPFR" "TPFR" "FR" Operating Expired;
  Venue "TEPI" "TPFR" "FR" Segment Expired;
  Venue "TPMF" "TPIS" "GB" Segment Expired;
  Venue "TPSY" "TPIS" "GB" Segment Expired;
  Venue "TSUK" "TPSL" "GB" Segment Expired;
  Venue "TSMC" "TPSL" "GB" Segment Expired;
  Venue "TSMG" "TPSL" "GB" Segment Expired;
  Venue "TSMI" "TPSL" "GB" Segment Expired;
  Venue "TSMB" "TPSL" "GB" Segment Expired;
  Venue "WELS" "WELS" "US" Operating Active;
  Venue "CBAL" "CBAL" "GB" Operating Active;
  Venue "ICEN" "ICAP" "GB" Segment Expired;
  Venue "SCXA" "SCXO" "US" Segment Active;
  Venue "SIAB" "SIAB" "PL" Operating Active;
  Venue "BKSK" "BKSK" "AT" Operating Active;
  Venue "CMCI" "CMCI" "FR" Operating Active;
  Venue "MHBD" "MHBD" "DE" Operating Active;
  Venue "CSOT" "CSAG" "CH" Segment Active;
  Venue "MUSE" "MUSE" "GB" Operating Active;
  Venue "NABU" "NABE" "GB" Segment Expired;
  Venue "NABE" "NABE" "GB" Operating Expired;
  Venue "NABA" "NABL" "GB" Segment Active;
  Venue "ABNA" "ABNA" "NL" Operating Active;
  Venue "BBIS" "BBIE" "IE" Segment Active;
  Venue "BBIE" "BBIE" "IE" Operating Active;
  Venue "ERST" "ERST" "HU" Operating Active;
  Venue "IKBS" "IKBS" "DE" Operating Active;
  Venue "TQEX" "TQEX" "NL" Operating Active;
  Venue "TQEB" "TQEX" "NL" Segment Active;
  Venue "TQEM" "TQEX" "NL" Segment Active;
  Venue "TQEA" "TQEX" "NL" Segment Active;
  Venue "APAW" "APAW" "AT" Operating Active;
  Venue "NABL" "NABL" "GB" Operating Active;
  Venue "OBKL" "OBKL" "AT" Operating Active;
  Venue "TWJP" "TWJP" "JP" Operating Active;
  Venue "HRTF" "HRTF" "US" Operating Active;
  Venue "SMBB" "SMBB" "BE" Operating Active;
  Venue "CGMD" "CGMD" "DE" Operating Active;
  Venue "EXYY" "EXSY" "FR" Segment Active;
  Venue "EXSF" "EXSY" "FR" Segment Active;
  Venue "EXSP" "EXSY" "FR" Segment Active;
  Venue "EXSD" "EXSY" "FR" Segment Active;
  Venue "EXSB" "EXSY" "FR" Segment Active;
  Venue "EXSH" "EXSY" "FR" Segment Active;
  Venue "HEMO" "HEMO" "GR" Operating Active;
  Venue "IMCT" "IMCT" "NL" Operating Active;
  Venue "METZ" "METZ" "GB" Operating Active;
  Venue "MIBL" "MIBL" "LU" Operating Expired;
  Venue "MUBL" "MUBL" "GB" Operating Active;
  Venue "MUBM" "MUBM" "IT" Operating Active;
  Venue "MUBP" "MUBP" "FR" Operating Active;
  Venue "RBIV" "RBIV" "AT" Operating Active;
  Venue "SMBG" "SMBG" "GB" Operating Active;
  Venue "TRQB" "TRQX" "GB" Segment Active;
  Venue "MUBE" "MUBE" "NL" Operating Active;
  Venue "JPEU" "JPEU" "DE" Operating Active;
  Venue "SMBE" "SMBE" "GB" Operating Active;
  Venue "SMBP" "SMBP" "FR" Operating Active;
  Venue "LEUE" "LEUE" "IE" Operating Expired;
  Venue "LEUF" "LEUE" "IE" Segment Expired;
  Venue "HELA" "HELA" "DE" Operating Active;
  Venue "NESI" "NESI" "DE" Operating Active;
  Venue "BHWA" "BHWA" "PL" Operating Active;
  Venue "FINN" "FINR" "US" Segment Active;
  Venue "ISBA" "ISBA" "IT" Operating Active;
  Venue "ISBV" "ISBV" "IT" Operating Expired;
  Venue "KBCB" "KBCB" "BE" Operating Active;
  Venue "MAQI" "MAQI" "GB" Operating Active;
  Venue "MAQU" "MAQU" "GB" Operating Active;
  Venue "XFCI" "FICO" "US" Segment Active;
  Venue "XFDA" "FICO" "US" Segment Active;
  Venue "FICO" "FICO" "US" Operating Active;
  Venue "LBBW" "LBBW" "DE" Operating Active;
  Venue "LBWL" "LBBW" "DE" Segment Active;
  Venue "LBWS" "LBBW" "DE" Segment Active;
  Venue "NURO" "NURO" "GB" Operating Expired;
  Venue "XNLX" "NURO" "GB" Segment Expired;
  Venue "MTSM" "MTSO" "IT" Segment Expired;
  Venue "NURD" "NURO" "GB" Segment Expired;
  Venue "TEMC" "TPEL" "GB" Segment Expired;
  Venue "TPMG" "TPIS" "GB" Segment Expired;
  Venue "EDGA" "XCBO" "US" Segment Active;
  Venue "EDGD" "XCBO" "US" Segment Active;
  Venue "EDGO" "XCBO" "US" Segment Active;
  Venue "EDGX" "XCBO" "US" Segment Active;
  Venue "BATS" "XCBO" "US" Segment Active;
  Venue "BATY" "XCBO" "US" Segment Active;
  Venue "BYXD" "XCBO" "US" Segment Active;
  Venue "BZXD" "XCBO" "US" Segment Active;
  Venue "EDDP" "XCBO" "US" Segment Active;
  Venue "BATO" "XCBO" "US" Segment Active;
  Venue "ZFXM" "XJSE" "ZA" Segment Active;
  Venue "BAPE" "BAPE" "NL" Operating Active;
  Venue "BASE" "BASE" "HK" Operating Active;
  Venue "BCEE" "BCEE" "LU" Operating Active;
  Venue "BLIQ" "BLBB" "DE" Segment Active;
  Venue "BSFX" "BLBB" "DE" Segment Active;
  Venue "BDEA" "BLBB" "DE" Segment Active;
  Venue "BLBS" "BLBB" "DE" Segment Active;
  Venue "BPKO" "BPKO" "PL" Operating Active;
  Venue "BTFE" "BTFE" "NL" Operating Active;
  Venue "HRSI" "HRSI" "GB" Operating Active;
  Venue "R5FX" "R5FX" "GB" Operating Active;
  Venue "SISI" "SISI" "IE" Operating Active;
  Venue "BEIS" "BEIS" "IT" Operating Active;
  Venue "BLBB" "BLBB" "DE" Operating Active;
  Venue "BASX" "BASX" "JP" Operating Active;
  Venue "HRTX" "HRTX" "US" Operating Active;
  Venue "ICAS" "ICAS" "NO" Operating Expired;
  Venue "INCR" "INCR" "US" Operating Active;
  Venue "IOFB" "IOTF" "GB" Segment Expired;
  Venue "MSRP" "MSCO" "US" Segment Active;
  Venue "OCSI" "OCSI" "GB" Operating Active;
  Venue "EDRF" "EDRF" "FR" Operating Active;
  Venue "BNSX" "BNSX" "CA" Operating Active;
  Venue "EXSE" "EXSE" "FR" Operating Active;
  Venue "MSSI" "MSIP" "GB" Segment Active;
  Venue "TPLF" "TPIS" "GB" Segment Expired;
  Venue "MELO" "XNAS" "US" Segment Active;
  Venue "AIXK" "AIXK" "KZ" Operating Active;
  Venue "CBLC" "CGMI" "US" Segment Expired;
  Venue "CIOI" "CGMI" "US" Segment Expired;
  Venue "LBCM" "LBCM" "GB" Operating Active;
  Venue "RLBO" "RLBO" "AT" Operating Active;
  Venue "SBEX" "SBEX" "GB" Operating Active;
  Venue "VTBC" "VTBC" "GB" Operating Active;
  Venue "XEHQ" "XEUP" "DE" Segment Active;
  Venue "ZARX" "ZARX" "ZA" Operating Active;
  Venue "IPSX" "IPSX" "GB" Operating Active;
  Venue "TPDE" "TPDE" "DE" Operating Expired;
  Venue "TSFG" "TPDE" "DE" Segment Expired;
  Venue "TSFF" "TPDE" "DE" Segment Expired;
  Venue "COMM" "COMM" "NL" Operating Active;
  Venue "MOSE" "XSTO" "SE" Segment Active;
  Venue "DOSE" "XSTO" "SE" Segment Active;
  Venue "ATLB" "ATLB" "GB" Operating Active;
  Venue "CCMS" "CCMS" "CH" Operating Active;
  Venue "DAIW" "DAIW" "GB" Operating Active;
  Venue "IBEQ" "IBIS" "IT" Segment Active;
  Venue "IINX" "IINX" "IN" Operating Active;
  Venue "EMLD" "MIHI" "US" Segment Active;
  Venue "OPCO" "OPCO" "FI" Operating Active;
  Venue "TSBX" "TSBX" "US" Operating Expired;
  Venue "TMXS" "TMXS" "CA" Operating Expired;
  Venue "BELF" "BELB" "BE" Segment Active;
  Venue "BELB" "BELB" "BE" Operating Active;
  Venue "IMTF" "IMTF" "GB" Operating Active;
  Venue "MAGM" "MAGM" "US" Operating Expired;
  Venue "ASXC" "XASX" "AU" Segment Active;
  Venue "CFBC" "XCFE" "CN" Segment Active;
  Venue "BLXA" "BLXA" "AU" Operating Active;
  Venue "GFKS" "GFKS" "SE" Operating Active;
  Venue "SGOE" "SGOE" "FR" Operating Active;
  Venue "UBSA" "UBSA" "US" Operating Active;
  Venue "UBSS" "UBSS" "US" Operating Active;
  Venue "IBIS" "IBIS" "IT" Operating Active;
  Venue "PDQD" "PDQX" "US" Segment Expired;
  Venue "TFSD" "TFSD" "HK" Operating Active;
  Venue "TRAS" "TRAS" "HK" Operating Active;
  Venue "TSIG" "TSIG" "SG" Operating Active;
  Venue "UTSL" "UTSL" "JP" Operating Active;
  Venue "SBMF" "BMFX" "RO" Segment Expired;
  Venue "BMFM" "BMFX" "RO" Segment Expired;
  Venue "BMFA" "BMFX" "RO" Segment Expired;
  Venue "BMFX" "BMFX" "RO" Operating Expired;
  Venue "CSZH" "CSZH" "CH" Operating Active;
  Venue "STAL" "STAL" "GB" Operating Expired;
  Venue "JASR" "XIJP" "JP" Segment Expired;
  Venue "XIJP" "XIJP" "JP" Operating Expired;
  Venue "XMCE" "BMEX" "ES" Segment Expired;
  Venue "EUWA" "EUWA" "DE" Operating Active;
  Venue "EXSY" "EXSY" "FR" Operating Active;
  Venue "A2XX" "A2XX" "ZA" Operating Active;
  Venue "FXOP" "FXOP" "GB" Operating Active;
  Venue "BOND" "MTSO" "IT" Segment Expired;
  Venue "TFSG" "TRDE" "GB" Segment Expired;
  Venue "TCDS" "TRDE" "GB" Segment Active;
  Venue "TRDE" "TRDE" "GB" Operating Active;
  Venue "NAVE" "TRDE" "GB" Segment Expired;
  Venue "ZAPA" "XZAG" "HR" Segment Active;
  Venue "AKIS" "AKIS" "IT" Operating Active;
  Venue "BPSX" "BPSX" "FR" Operating Active;
  Venue "ISWE" "IGDL" "GB" Segment Active;
  Venue "ISWV" "IGDL" "GB" Segment Active;
  Venue "IGDL" "IGDL" "GB" Operating Active;
  Venue "HPCV" "HPCX" "FR" Segment Active;
  Venue "JSSI" "JSSI" "GB" Operating Active;
  Venue "SEBX" "SEBX" "SE" Operating Expired;
  Venue "TWGP" "TWGP" "GB" Operating Active;
  Venue "GMGD" "GMGD" "AE" Operating Active;
  Venue "GMGL" "GMGL" "GB" Operating Active;
  Venue "NPEX" "NPEX" "NL" Operating Active;
  Venue "OAPA" "OAPA" "NO" Operating Active;
  Venue "DDTX" "DDTX" "IT" Operating Active;
  Venue "HPCX" "HPCX" "FR" Operating Active;
  Venue "SB1M" "SB1M" "NO" Operating Active;
  Venue "SEDR" "SEDR" "GB" Operating Expired;
  Venue "ANTS" "ANTS" "GB" Operating Active;
  Venue "IENG" "IENG" "PL" Operating Expired;
  Venue "SGMY" "SGMX" "GB" Segment Active;
  Venue "SGMX" "SGMX" "GB" Operating Active;
  Venue "SSBM" "SSBI" "DE" Segment Active;
  Venue "SSBI" "SSBI" "DE" Operating Active;
  Venue "DBES" "DBAG" "DE" Segment Active;
  Venue "DBAG" "DBAG" "DE" Operating Active;
  Venue "MKAP" "MKAP" "CY" Operating Active;
  Venue "GSAL" "GSAL" "HK" Operating Active;
  Venue "GSXH" "GSAL" "HK" Segment Active;
  Venue "SIGH" "GSAL" "HK" Segment Active;
  Venue "SWEE" "SWEE" "EE" Operating Active;
  Venue "SWLT" "SWLT" "LT" Operating Active;
  Venue "SWLV" "SWLV" "LV" Operating Active;
  Venue "TECO" "TPEO" "GB" Segment Active;
  Venue "XZAP" "XZAG" "HR" Segment Active;
  Venue "ODDO" "ODDO" "FR" Operating Active;
  Venue "ODOC" "ODOC" "FR" Operating Active;
  Venue "PULX" "PULX" "US" Operating Expired;
  Venue "SANT" "SANT" "ES" Operating Active;
  Venue "UBIN" "UBIN" "GB" Operating Active;
  Venue "CSLB" "CSLB" "GB" Operating Active;
  Venue "JISI" "JISI" "GB" Operating Active;
  Venue "JEFS" "JISI" "GB" Segment Active;
  Venue "VTPS" "VWDX" "DE" Segment Active;
  Venue "VWDX" "VWDX" "DE" Operating Active;
  Venue "VTLS" "VWDX" "DE" Segment Active;
  Venue "BAMX" "BAMX" "US" Operating Active;
  Venue "IMCO" "NDEX" "NL" Segment Active;
  Venue "ENSX" "SEBS" "SE" Segment Expired;
  Venue "SEBS" "SEBS" "SE" Operating Active;
  Venue "INCA" "XINS" "US" Segment Active;
  Venue "SSOB" "MTSO" "IT" Segment Active;
  Venue "XABC" "XABC" "SE" Operating Active;
  Venue "GFIC" "GFIC" "GB" Operating Active;
  Venue "KELR" "KELR" "HU" Operating Active;
  Venue "MLXN" "MLXN" "GB" Operating Expired;
  Venue "MLAX" "MLXN" "GB" Segment Expired;
  Venue "XBOX" "XBOX" "US" Operating Active;
  Venue "NORD" "NORD" "DE" Operating Active;
  Venue "OTXB" "OTXB" "CH" Operating Active;
  Venue "SEMX" "SEMX" "IE" Operating Active;
  Venue "XAPA" "XPAR" "FR" Segment Active;
  Venue "AACA" "AACA" "FR" Operating Active;
  Venue "ABSI" "ABSI" "DK" Operating Active;
  Venue "BINV" "BINV" "DE" Operating Active;
  Venue "GLMX" "GLMX" "US" Operating Active;
  Venue "GTXE" "GTXE" "BM" Operating Active;
  Venue "JPCB" "JPCB" "GB" Operating Active;
  Venue "REST" "NEXS" "GB" Segment Active;
  Venue "NLBX" "NLBX" "DE" Operating Active;
  Venue "XREP" "ROSR" "CH" Segment Active;
  Venue "ROSR" "ROSR" "CH" Operating Active;
  Venue "XROT" "ROSR" "CH" Segment Active;
  Venue "XLLB" "XLLB" "LI" Operating Active;
  Venue "XVPB" "XVPB" "LI" Operating Active;
  Venue "HBPL" "HBPL" "PL" Operating Active;
  Venue "LMAO" "LMAX" "GB" Segment Updated;
  Venue "LMAE" "LMAX" "GB" Segment Updated;
  Venue "LMAF" "LMAX" "GB" Segment Active;
  Venue "XABG" "XABG" "NO" Operating Active;
  Venue "ALSI" "ALSI" "DK" Operating Active;
  Venue "APCL" "APEX" "SG" Segment Active;
  Venue "SBSI" "SBSI" "DK" Operating Active;
  Venue "TDBL" "TDBL" "GB" Operating Active;
  Venue "BNPA" "BNPA" "FR" Operating Active;
  Venue "BNPF" "BNPF" "BE" Operating Active;
  Venue "BNPS" "BNPS" "FR" Operating Active;
  Venue "SEDX" "XMIL" "IT" Segment Active;
  Venue "CMED" "CMEE" "GB" Segment Expired;
  Venue "ICEO" "ICEO" "GB" Operating Expired;
  Venue "IECL" "TPEO" "GB" Segment Active;
  Venue "IOFI" "IOTF" "GB" Segment Active;
  Venue "IOFX" "IOTF" "GB" Segment Active;
  Venue "IOGB" "IOTF" "GB" Segment Active;
  Venue "IOCD" "IOTF" "GB" Segment Active;
  Venue "IOED" "IOTF" "GB" Segment Active;
  Venue "IOGI" "IOTF" "GB" Segment Active;
  Venue "IOIR" "IOTF" "GB" Segment Active;
  Venue "IOMM" "IOTF" "GB" Segment Active;
  Venue "ISWA" "ISWA" "GB" Operating Active;
  Venue "MDRV" "MIBG" "ES" Segment Active;
  Venue "NWMS" "NWMS" "GB" Operating Active;
  Venue "RBCE" "RBCE" "GB" Operating Active;
  Venue "IIDX" "XINS" "US" Segment Expired;
  Venue "IBLX" "XINS" "US" Segment Expired;
  Venue "RCBX" "XINS" "US" Segment Expired;
  Venue "IFSM" "XMAL" "MT" Segment Active;
  Venue "MTSS" "XMTS" "GB" Segment Expired;
  Venue "MTSW" "XMTS" "GB" Segment Expired;
  Venue "XSGA" "XSGA" "FR" Operating Active;
  Venue "ANLP" "ANZL" "GB" Segment Active;
  Venue "KBLM" "KBLM" "GB" Operating Active;
  Venue "KOTF" "KOTF" "FR" Operating Active;
  Venue "LASP" "LASP" "DK" Operating Active;
  Venue "MACB" "MAQX" "AU" Segment Active;
  Venue "TDON" "TDON" "FR" Operating Active;
  Venue "TSAF" "TSAF" "FR" Operating Active;
  Venue "UBIS" "UBIS" "IT" Operating Active;
  Venue "BRFQ" "XIEL" "GB" Segment Active;
  Venue "BNTW" "XIEL" "GB" Segment Active;
  Venue "BLOX" "XIEL" "GB" Segment Active;
  Venue "IOTC" "XIEL" "GB" Segment Active;
  Venue "XIEL" "XIEL" "GB" Operating Active;
  Venue "XOAA" "XOSL" "NO" Segment Active;
  Venue "BASI" "BANA" "GB" Segment Active;
  Venue "BANA" "BANA" "GB" Operating Active;
  Venue "BOAL" "BANA" "GB" Segment Active;
  Venue "CSEC" "CSEC" "GB" Operating Active;
  Venue "MLSI" "MLIX" "GB" Segment Active;
  Venue "MLIX" "MLIX" "GB" Operating Active;
  Venue "MLRQ" "MLIX" "GB" Segment Active;
  Venue "SVEX" "SVEX" "SE" Operating Active;
  Venue "SVES" "SVEX" "SE" Segment Active;
  Venue "AAPA" "AAPA" "GR" Operating Active;
  Venue "CIMV" "CIMD" "ES" Segment Active;
  Venue "CIMB" "CIMD" "ES" Segment Active;
  Venue "CIME" "CIMD" "ES" Segment Active;
  Venue "CIMD" "CIMD" "ES" Operating Active;
  Venue "CURX" "CURX" "US" Operating Updated;
  Venue "INGE" "INGB" "NL" Segment Active;
  Venue "INGF" "INGB" "NL" Segment Active;
  Venue "SKSI" "SKSI" "DK" Operating Active;
  Venue "SQUA" "SQUA" "GB" Operating Active;
  Venue "SSBT" "SSBT" "GB" Operating Active;
  Venue "SSFX" "SSBT" "GB" Segment Active;
  Venue "AFSO" "AFSA" "NL" Segment Active;
  Venue "AFSX" "AFSA" "NL" Segment Active;
  Venue "AFSL" "AFSA" "NL" Segment Active;
  Venue "AFSA" "AFSA" "NL" Operating Active;
  Venue "AFSI" "AFSA" "NL" Segment Active;
  Venue "ARIA" "ARIA" "GB" Operating Active;
  Venue "DVFX" "DVFX" "GB" Operating Active;
  Venue "ETPA" "ETPA" "NL" Operating Active;
  Venue "LOUI" "LOUI" "GB" Operating Expired;
  Venue "RABO" "RABO" "NL" Operating Active;
  Venue "BBVA" "BBVA" "ES" Operating Active;
  Venue "BTNL" "BTNL" "US" Operating Active;
  Venue "CAPI" "CAPI" "ES" Operating Active;
  Venue "XRCB" "XRCB" "AT" Operating Active;
  Venue "APEX" "APEX" "SG" Operating Active;
  Venue "XGAT" "TGAT" "DE" Segment Active;
  Venue "TGSI" "TGAT" "DE" Segment Active;
  Venue "TGAT" "TGAT" "DE" Operating Active;
  Venue "XGRM" "TGAT" "DE" Segment Active;
  Venue "CGMT" "CGML" "GB" Segment Active;
  Venue "NYSI" "NYSI" "DK" Operating Active;
  Venue "XMAL" "XMAL" "MT" Operating Active;
  Venue "CASI" "CASI" "SE" Operating Active;
  Venue "CNSI" "CNSI" "NO" Operating Active;
  Venue "TRQA" "TRQX" "GB" Segment Active;
  Venue "XOSA" "XOSL" "NO" Segment Active;
  Venue "CCEU" "CCEU" "GB" Operating Active;
  Venue "XTXM" "XTXM" "GB" Operating Active;
  Venue "GFSM" "GFIC" "GB" Segment Active;
  Venue "GFSO" "GFIC" "GB" Segment Active;
  Venue "AURO" "AURB" "FR" Segment Active;
  Venue "AURB" "AURB" "FR" Operating Active;
  Venue "BGCM" "BGCI" "GB" Segment Expired;
  Venue "EXSI" "EXEU" "GB" Segment Active;
  Venue "ISWR" "ISWA" "GB" Segment Active;
  Venue "ISWC" "ISWA" "GB" Segment Active;
  Venue "ISWB" "ISWA" "GB" Segment Active;
  Venue "SUNM" "SUNB" "GB" Segment Expired;
  Venue "TSCB" "TPSO" "GB" Segment Expired;
  Venue "VAGL" "VAGL" "GB" Operating Active;
  Venue "BCSL" "BCSL" "GB" Operating Active;
  Venue "BCSI" "BCSL" "GB" Segment Active;
  Venue "BGCO" "BGCI" "GB" Segment Active;
  Venue "GFBM" "GFIB" "GB" Segment Active;
  Venue "GFBO" "GFIB" "GB" Segment Active;
  Venue "GFIB" "GFIB" "GB" Operating Active;
  Venue "GFIF" "GFIC" "GB" Segment Active;
  Venue "GFIN" "GFIC" "GB" Segment Active;
  Venue "GFIR" "GFIC" "GB" Segment Active;
  Venue "INGB" "INGB" "NL" Operating Active;
  Venue "SFCL" "SFCL" "GB" Operating Active;
  Venue "SUNO" "SUNB" "GB" Segment Expired;
  Venue "SUNB" "SUNB" "GB" Operating Expired;
  Venue "TPSL" "TPSL" "GB" Operating Active;
  Venue "TSMR" "TPSL" "GB" Segment Active;
  Venue "VONT" "VONT" "DE" Operating Active;
  Venue "BKBR" "BKBR" "BE" Operating Active;
  Venue "BKBF" "BKBR" "BE" Segment Active;
  Venue "CBKA" "CBKA" "DE" Operating Active;
  Venue "TPES" "TPES" "ES" Operating Expired;
  Venue "TSRE" "TPSO" "GB" Segment Expired;
  Venue "TSCD" "TPSO" "GB" Segment Active;
  Venue "TSGB" "TPSO" "GB" Segment Active;
  Venue "TSFI" "TPSO" "GB" Segment Active;
  Venue "TSED" "TPSO" "GB" Segment Active;
  Venue "TSGI" "TPSO" "GB" Segment Active;
  Venue "TSMM" "TPSO" "GB" Segment Active;
  Venue "TPSO" "TPSO" "GB" Operating Active;
  Venue "CBKD" "CBKA" "DE" Segment Active;
  Venue "CBKF" "CBKA" "DE" Segment Active;
  Venue "CBKE" "CBKA" "DE" Segment Active;
  Venue "CBKG" "CBKA" "DE" Segment Active;
  Venue "CGML" "CGML" "GB" Operating Active;
  Venue "CPTX" "CPTX" "NL" Operating Active;
  Venue "MAQL" "MAQL" "GB" Operating Active;
  Venue "DZBK" "DZBK" "DE" Operating Active;
  Venue "XPOS" "ITGL" "IE" Segment Active;
  Venue "TPEL" "TPEL" "GB" Operating Active;
  Venue "TEFD" "TPEL" "GB" Segment Active;
  Venue "TEMF" "TPEL" "GB" Segment Expired;
  Venue "TEMI" "TPEL" "GB" Segment Expired;
  Venue "TIRD" "TPEL" "GB" Segment Expired;
  Venue "TEMB" "TPEL" "GB" Segment Expired;
  Venue "TEMR" "TPEL" "GB" Segment Active;
  Venue "TERE" "TPEO" "GB" Segment Expired;
  Venue "TEFX" "TPEO" "GB" Segment Expired;
  Venue "TEMM" "TPEO" "GB" Segment Expired;
  Venue "TEGI" "TPEO" "GB" Segment Expired;
  Venue "TEIR" "TPEO" "GB" Segment Expired;
  Venue "TPEO" "TPEO" "GB" Operating Active;
  Venue "TEGB" "TPEO" "GB" Segment Expired;
  Venue "TOMG" "TPES" "ES" Segment Expired;
  Venue "TEPF" "TPFR" "FR" Segment Expired;
  Venue "TWHK" "TWHK" "HK" Operating Active;
  Venue "TWJT" "TWJP" "JP" Segment Active;
  Venue "TWSG" "TWSG" "SG" Operating Active;
  Venue "WOOD" "WOOD" "CZ" Operating Active;
  Venue "XRFQ" "ITGL" "IE" Segment Active;
  Venue "XPAC" "ITGL" "IE" Segment Active;
  Venue "LOYD" "LOYD" "GB" Operating Active;
  Venue "SCXF" "SCXO" "US" Segment Active;
  Venue "BOFS" "BOFS" "GB" Operating Active;
  Venue "SUNT" "SUNT" "US" Operating Active;
  Venue "SWBI" "SWBI" "SE" Operating Active;
  Venue "WBKP" "WBKP" "PL" Operating Active;
  Venue "BGSI" "BGSI" "DE" Operating Active;
  Venue "BPLC" "BPLC" "GB" Operating Active;
  Venue "BBSI" "BPLC" "GB" Segment Active;
  Venue "LSSI" "LSSI" "DE" Operating Active;
  Venue "JSEB" "XJSE" "ZA" Segment Active;
  Venue "BIVA" "BIVA" "MX" Operating Active;
  Venue "BKLN" "BKLN" "GB" Operating Active;
  Venue "BKLF" "BKLN" "GB" Segment Active;
  Venue "FISU" "FISU" "GB" Operating Active;
  Venue "JBSI" "JBSI" "DK" Operating Active;
  Venue "NAPA" "NAPA" "SE" Operating Active;
  Venue "POTC" "POTC" "VU" Operating Active;
  Venue "PPEX" "PPEX" "GB" Operating Active;
  Venue "ESTO" "XSTO" "SE" Segment Active;
  Venue "ONSE" "XSTO" "SE" Segment Active;
  Venue "BAAD" "BAAD" "DE" Operating Active;
  Venue "INVE" "INVE" "GB" Operating Active;
  Venue "EMCH" "TRDE" "GB" Segment Expired;
  Venue "VOLA" "TRDE" "GB" Segment Expired;
  Venue "XDNB" "XDNB" "NO" Operating Active;
  Venue "IFLS" "IFLS" "GB" Operating Active;
  Venue "XSMP" "XLDN" "GB" Segment Expired;
  Venue "EBSX" "BTEE" "GB" Segment Expired;
  Venue "EXOT" "EXOT" "GB" Operating Active;
  Venue "HSXE" "HSXE" "GB" Operating Expired;
  Venue "ANZL" "ANZL" "GB" Operating Active;
  Venue "BMEA" "BMEX" "ES" Segment Active;
  Venue "EBSC" "EBSS" "CH" Segment Active;
  Venue "ECHO" "ECHO" "GB" Operating Active;
  Venue "FBSI" "FBSI" "IT" Operating Active;
  Venue "HSBC" "HSBC" "GB" Operating Active;
  Venue "HSBT" "HSBT" "DE" Operating Active;
  Venue "NATX" "NATX" "FR" Operating Active;
  Venue "STAN" "STAN" "GB" Operating Active;
  Venue "VCMO" "VCMO" "GB" Operating Active;
  Venue "AIMX" "XLON" "GB" Segment Active;
  Venue "XLOM" "XLON" "GB" Segment Active;
  Venue "ADVT" "ADVT" "US" Operating Active;
  Venue "SICS" "CSEU" "GB" Segment Active;
  Venue "CSIN" "CSIN" "GB" Operating Active;
  Venue "CSSI" "CSIN" "GB" Segment Active;
  Venue "DOWG" "DOWG" "GB" Operating Active;
  Venue "AMPX" "AMPX" "GB" Operating Active;
  Venue "FXGB" "FXGB" "GB" Operating Active;
  Venue "TOMD" "TOMX" "NL" Segment Expired;
  Venue "TOMX" "TOMX" "NL" Operating Expired;
  Venue "TRSI" "TRSI" "GB" Operating Active;
  Venue "RBSI" "RBCB" "LU" Segment Active;
  Venue "RTSI" "RBCT" "GB" Segment Active;
  Venue "MUND" "XMUN" "DE" Segment Active;
  Venue "MUNC" "XMUN" "DE" Segment Active;
  Venue "BTEE" "BTEE" "GB" Operating Active;
  Venue "EBSM" "BTEE" "GB" Segment Expired;
  Venue "EBSS" "EBSS" "CH" Operating Active;
  Venue "RBCB" "RBCB" "LU" Operating Active;
  Venue "RBCT" "RBCT" "GB" Operating Active;
  Venue "WIPO" "XWAR" "PL" Segment Active;
  Venue "GSIB" "GSIB" "GB" Operating Active;
  Venue "BISI" "GSIB" "GB" Segment Active;
  Venue "HUDX" "HUDX" "HU" Operating Active;
  Venue "IEXD" "IEXG" "US" Segment Active;
  Venue "IMCS" "IMCS" "US" Operating Active;
  Venue "UBSY" "UBSB" "GB" Segment Active;
  Venue "XEYE" "XDUB" "IE" Segment Active;
  Venue "XDUB" "XDUB" "IE" Operating Active;
  Venue "XATL" "XDUB" "IE" Segment Active;
  Venue "BILT" "BILT" "ZZ" Operating Active;
  Venue "XHNF" "HSTC" "VN" Segment Active;
  Venue "MUFP" "MUFP" "GB" Operating Active;
  Venue "VFIL" "VFIL" "IE" Operating Active;
  Venue "VFSI" "VFIL" "IE" Segment Active;
  Venue "VFXO" "VFIL" "IE" Segment Active;
  Venue "CCML" "CCML" "GB" Operating Active;
  Venue "CFTW" "CFTW" "TW" Operating Active;
  Venue "DAPA" "DAPA" "DE" Operating Active;
  Venue "VLEX" "VLEX" "CH" Operating Active;
  Venue "XSBT" "XSES" "SG" Segment Active;
  Venue "ENSY" "XLDN" "GB" Segment Expired;
  Venue "MHIP" "MHIP" "GB" Operating Active;
  Venue "WINS" "WINS" "GB" Operating Active;
  Venue "WINX" "WINS" "GB" Segment Active;
  Venue "ALXB" "XBRU" "BE" Segment Active;
  Venue "MLXB" "XBRU" "BE" Segment Active;
  Venue "ENXL" "XLIS" "PT" Segment Active;
  Venue "ALXL" "XLIS" "PT" Segment Active;
  Venue "XMLI" "XPAR" "FR" Segment Active;
  Venue "ALXP" "XPAR" "FR" Segment Active;
  Venue "SGMT" "GSCO" "US" Segment Active;
  Venue "MASG" "MASG" "SG" Operating Active;
  Venue "TCML" "TCML" "GB" Operating Active;
  Venue "FRTE" "FRTE" "GB" Operating Active;
  Venue "THEM" "THEM" "US" Operating Active;
  Venue "LEDG" "LEDG" "US" Operating Active;
  Venue "MTSD" "BEAM" "BE" Segment Active;
  Venue "MTSF" "BEAM" "BE" Segment Active;
  Venue "ISDX" "ICAP" "GB" Segment Expired;
  Venue "MUTI" "MUTI" "GB" Operating Active;
  Venue "NDCM" "NDCM" "GB" Operating Active;
  Venue "IMEQ" "NDEX" "NL" Segment Active;
  Venue "NDXS" "NDEX" "NL" Segment Active;
  Venue "NDEX" "NDEX" "NL" Operating Active;
  Venue "SPEC" "SPEC" "GB" Operating Active;
  Venue "ALXA" "XAMS" "NL" Segment Expired;
  Venue "ETFP" "XMIL" "IT" Segment Active;
  Venue "BART" "BCRM" "GB" Segment Active;
  Venue "BARO" "BCRM" "GB" Segment Active;
  Venue "BCRM" "BCRM" "GB" Operating Active;
  Venue "BARK" "BCRM" "GB" Segment Active;
  Venue "BMTS" "BEAM" "BE" Segment Active;
  Venue "MTUS" "MTUS" "US" Operating Expired;
  Venue "GOTC" "GOTC" "US" Operating Active;
  Venue "MFXC" "MFXC" "GB" Operating Active;
  Venue "MFXR" "MFXC" "GB" Segment Active;
  Venue "MFXA" "MFXC" "GB" Segment Active;
  Venue "SNSI" "SNSI" "DK" Operating Active;
  Venue "VERT" "VERT" "US" Operating Active;
  Venue "IBUL" "XBUL" "BG" Segment Active;
  Venue "APXL" "APXL" "AU" Operating Active;
  Venue "CLTD" "CLTD" "SG" Operating Active;
  Venue "DRCT" "DRCT" "JP" Operating Active;
  Venue "MTXX" "MTXX" "US" Operating Active;
  Venue "CAVE" "OTCM" "US" Segment Active;
  Venue "OTCB" "OTCM" "US" Segment Active;
  Venue "PINL" "OTCM" "US" Segment Active;
  Venue "PINI" "OTCM" "US" Segment Active;
  Venue "PINX" "OTCM" "US" Segment Active;
  Venue "OTCQ" "OTCM" "US" Segment Active;
  Venue "PSGM" "OTCM" "US" Segment Active;
  Venue "PINC" "OTCM" "US" Segment Active;
  Venue "XEER" "XEEE" "DE" Segment Active;
  Venue "XEEO" "XEEE" "DE" Segment Active;
  Venue "XEEE" "XEEE" "DE" Operating Active;
  Venue "MTSO" "MTSO" "IT" Operating Active;
  Venue "MTSC" "MTSO" "IT" Segment Active;
  Venue "ELUK" "NORX" "NO" Segment Active;
  Venue "ELNO" "NORX" "NO" Segment Active;
  Venue "ELSE" "NORX" "NO" Segment Active;
  Venue "ELEU" "NORX" "NO" Segment Active;
  Venue "FREI" "NORX" "NO" Segment Active;
  Venue "NOSI" "NOSI" "GB" Operating Active;
  Venue "PRME" "XMTS" "GB" Segment Expired;
  Venue "CSBX" "CSEU" "GB" Segment Active;
  Venue "CXOT" "IFEU" "GB" Segment Active;
  Venue "XBDV" "XBDV" "AO" Operating Active;
  Venue "DKED" "XSTO" "SE" Segment Active;
  Venue "DKFI" "XSTO" "SE" Segment Active;
  Venue "NOED" "XSTO" "SE" Segment Active;
  Venue "SEED" "XSTO" "SE" Segment Active;
  Venue "PNED" "XSTO" "SE" Segment Expired;
  Venue "USWB" "XSTO" "SE" Segment Active;
  Venue "NOFI" "XSTO" "SE" Segment Active;
  Venue "FIED" "XSTO" "SE" Segment Active;
  Venue "EBON" "XSTO" "SE" Segment Active;
  Venue "EUWB" "XSTO" "SE" Segment Active;
  Venue "DIFX" "DIFX" "AE" Operating Active;
  Venue "TREA" "TREU" "GB" Segment Active;
  Venue "TREO" "TREU" "GB" Segment Active;
  Venue "AUTB" "AUTX" "GB" Segment Active;
  Venue "AUTX" "AUTX" "GB" Operating Active;
  Venue "AUTP" "AUTX" "GB" Segment Active;
  Venue "CXRT" "IFEU" "GB" Segment Active;
  Venue "ACKF" "KNIG" "US" Segment Active;
  Venue "NEXS" "NEXS" "GB" Operating Active;
  Venue "VIRT" "VIRT" "US" Operating Active;
  Venue "BALT" "BALT" "GB" Operating Active;
  Venue "BLTX" "BALT" "GB" Segment Active;
  Venue "CGMA" "CGMA" "AU" Operating Active;
  Venue "CGMH" "CGMH" "HK" Operating Active;
  Venue "CGMI" "CGMI" "US" Operating Active;
  Venue "LQFI" "CGMI" "US" Segment Expired;
  Venue "CGMX" "CGMX" "MX" Operating Active;
  Venue "CITX" "CITX" "JP" Operating Active;
  Venue "CITD" "CITX" "JP" Segment Active;
  Venue "GRIO" "GRIF" "GB" Segment Active;
  Venue "LQED" "LQED" "US" Operating Active;
  Venue "MTXA" "MTXX" "US" Segment Active;
  Venue "PTPG" "PTPG" "PL" Operating Active;
  Venue "UFEX" "UFEX" "UY" Operating Active;
  Venue "TSAD" "TSAD" "US" Operating Active;
  Venue "XISL" "XISL" "PK" Operating Expired;
  Venue "XKAR" "XKAR" "PK" Operating Active;
  Venue "XLAH" "XLAH" "PK" Operating Expired;
  Venue "XLGT" "XLGT" "LI" Operating Active;
  Venue "XSTF" "XSTU" "DE" Segment Active;
  Venue "STUC" "XSTU" "DE" Segment Active;
  Venue "STUD" "XSTU" "DE" Segment Active;
  Venue "XCEG" "XWBO" "AT" Segment Expired;
  Venue "XRSP" "PEEL" "GB" Segment Active;
  Venue "PEEL" "PEEL" "GB" Operating Active;
  Venue "XPHX" "PEEL" "GB" Segment Active;
  Venue "CAZE" "CAZE" "GB" Operating Expired;
  Venue "JPBX" "JPBX" "US" Operating Active;
  Venue "JPSI" "JPSI" "GB" Operating Active;
  Venue "JSEF" "JSEF" "US" Operating Expired;
  Venue "AREX" "AREX" "IE" Operating Active;
  Venue "HOTC" "ASEX" "GR" Segment Active;
  Venue "XADE" "ASEX" "GR" Segment Active;
  Venue "ENAX" "ASEX" "GR" Segment Active;
  Venue "XATH" "ASEX" "GR" Segment Active;
  Venue "CSAU" "CSAU" "AU" Operating Active;
  Venue "CFAU" "CSAU" "AU" Segment Active;
  Venue "CSEU" "CSEU" "GB" Operating Active;
  Venue "CSCF" "CSEU" "GB" Segment Active;
  Venue "CSHK" "CSHK" "HK" Operating Active;
  Venue "CFHK" "CSHK" "HK" Segment Active;
  Venue "CSJP" "CSJP" "JP" Operating Active;
  Venue "CFJP" "CSJP" "JP" Segment Active;
  Venue "EDGE" "EDGE" "US" Operating Expired;
  Venue "FICX" "FICX" "DE" Operating Active;
  Venue "GBOT" "GBOT" "MU" Operating Active;
  Venue "GRIF" "GRIF" "GB" Operating Active;
  Venue "IBGH" "IBGH" "ES" Operating Active;
  Venue "IEXG" "IEXG" "US" Operating Active;
  Venue "LMEC" "LMEC" "GB" Operating Active;
  Venue "NEXO" "NEXO" "NO" Operating Active;
  Venue "NMRJ" "NMRJ" "JP" Operating Active;
  Venue "NXJP" "NMRJ" "JP" Segment Active;
  Venue "NXVW" "NMRJ" "JP" Segment Active;
  Venue "PARX" "TRDE" "GB" Segment Active;
  Venue "ELIX" "TRDE" "GB" Segment Active;
  Venue "TRDX" "TRDE" "GB" Segment Active;
  Venue "XBEL" "XBEL" "RS" Operating Active;
  Venue "BLBF" "XBLB" "BA" Segment Active;
  Venue "XBLB" "XBLB" "BA" Operating Active;
  Venue "XMOT" "XMIL" "IT" Segment Active;
  Venue "MOTX" "XMIL" "IT" Segment Active;
  Venue "MUNB" "XMUN" "DE" Segment Active;
  Venue "MUNA" "XMUN" "DE" Segment Active;
  Venue "XMUN" "XMUN" "DE" Operating Active;
  Venue "XNXC" "XNXC" "NL" Operating Active;
  Venue "XOPV" "XSTO" "SE" Segment Expired;
  Venue "XVES" "XVES" "LU" Operating Active;
  Venue "XVIA" "XLIT" "LT" Segment Expired;
  Venue "XHON" "XHON" "HN" Operating Expired;
  Venue "ICUS" "ICUS" "US" Operating Expired;
  Venue "ITSM" "ITSM" "IT" Operating Expired;
  Venue "JATA" "JATA" "JP" Operating Expired;
  Venue "KMTS" "KMTS" "GB" Operating Expired;
  Venue "XSUR" "XSUR" "ID" Operating Expired;
  Venue "XWCE" "IFCA" "CA" Segment Expired;
  Venue "NASN" "XSTO" "SE" Segment Expired;
  Venue "MTSP" "MTSP" "PL" Operating Expired;
  Venue "XASM" "XDUB" "IE" Segment Expired;
  Venue "XIEX" "XDUB" "IE" Segment Expired;
  Venue "XJKT" "XJKT" "ID" Operating Expired;
  Venue "MTAX" "MTAX" "IT" Operating Expired;
  Venue "XEAS" "XEQT" "BE" Segment Expired;
  Venue "XBMK" "XBMK" "US" Operating Expired;
  Venue "XBMF" "XBMF" "BR" Operating Expired;
  Venue "ICEU" "ICEU" "GB" Operating Expired;
  Venue "CETO" "XWAR" "PL" Segment Expired;
  Venue "XA1X" "XA1X" "AR" Operating Expired;
  Venue "ICAT" "ICAH" "GB" Segment Expired;
  Venue "NOME" "NURO" "GB" Segment Expired;
  Venue "EXPA" "MTAA" "IT" Segment Expired;
  Venue "XBSP" "XBSP" "BR" Operating Expired;
  Venue "NECD" "NECD" "AU" Operating Expired;
  Venue "NBXO" "XBXO" "US" Segment Expired;
  Venue "FXMT" "FXMT" "GB" Operating Expired;
  Venue "THRD" "XNIM" "US" Segment Expired;
  Venue "ATSA" "ATSA" "CA" Operating Expired;
  Venue "XSIC" "XSIC" "RU" Operating Expired;
  Venue "XTAA" "XTAL" "EE" Segment Expired;
  Venue "XTLX" "XTLX" "IT" Operating Expired;
  Venue "XLOF" "XLOF" "MY" Operating Expired;
  Venue "XMIC" "XMIC" "RU" Operating Expired;
  Venue "QMTS" "QMTS" "GB" Operating Expired;
  Venue "PCDS" "TPCD" "GB" Segment Expired;
  Venue "XEUS" "XEUS" "US" Operating Expired;
  Venue "XNYF" "XNYF" "US" Operating Expired;
  Venue "BAMP" "BAMP" "US" Operating Expired;
  Venue "XEDX" "XEDX" "GB" Operating Expired;
  Venue "XTAR" "XTAR" "EE" Operating Expired;
  Venue "URCE" "URCE" "RU" Operating Expired;
  Venue "VRXP" "XMLI" "FR" Segment Expired;
  Venue "XFNX" "XFNX" "IE" Operating Expired;
  Venue "CSFB" "CSEU" "GB" Segment Expired;
  Venue "XHCE" "XHCE" "DE" Operating Expired;
  Venue "XHER" "XHER" "JP" Operating Expired;
  Venue "CRDL" "CRDL" "GB" Operating Expired;
  Venue "BAIK" "BAIK" "GB" Operating Expired;
  Venue "UMTS" "UMTS" "GB" Operating Expired;
  Venue "XPIN" "UBSA" "US" Segment Expired;
  Venue "XRTR" "XRTR" "DE" Operating Expired;
  Venue "XPLU" "XPLU" "GB" Operating Expired;
  Venue "XROV" "XROV" "RU" Operating Expired;
  Venue "DAMP" "DAMP" "DK" Operating Expired;
  Venue "XLJS" "XLJS" "SI" Operating Expired;
  Venue "XRMS" "XRMS" "SK" Operating Expired;
  Venue "AATS" "AATS" "US" Operating Active;
  Venue "ACEX" "ACEX" "IN" Operating Active;
  Venue "AFDL" "AFDL" "GB" Operating Active;
  Venue "AFET" "AFET" "TH" Operating Active;
  Venue "AFSE" "AFSE" "NL" Operating Active;
  Venue "AIXE" "AIXE" "CH" Operating Expired;
  Venue "AQST" "AQSE" "GB" Segment Active;
  Venue "AQSL" "AQSE" "GB" Segment Active;
  Venue "AQSN" "AQSE" "GB" Segment Active;
  Venue "AQSG" "AQSE" "GB" Segment Active;
  Venue "AQSF" "AQSE" "GB" Segment Active;
  Venue "AQSD" "AQSE" "GB" Segment Active;
  Venue "AQUA" "AQUA" "US" Operating Expired;
  Venue "ASEX" "ASEX" "GR" Operating Active;
  Venue "XIPO" "ASEX" "GR" Segment Active;
  Venue "EUAX" "ASEX" "GR" Segment Expired;
  Venue "AWBX" "AWBX" "AU" Operating Active;
  Venue "AWEX" "AWEX" "AU" Operating Active;
  Venue "BACE" "BACE" "AR" Operating Active;
  Venue "MLCO" "BAML" "US" Segment Active;
  Venue "MLVX" "BAML" "US" Segment Active;
  Venue "BAML" "BAML" "US" Operating Active;
  Venue "BAPA" "BAPA" "GB" Operating Active;
  Venue "BAPX" "BAPX" "LT" Operating Active;
  Venue "BCDX" "BARX" "US" Segment Expired;
  Venue "BARL" "BARX" "US" Segment Active;
  Venue "BARX" "BARX" "US" Operating Active;
  Venue "BARD" "BARX" "US" Segment Active;
  Venue "BBSF" "BBSF" "US" Operating Active;
  Venue "BCFS" "BCFS" "AR" Operating Active;
  Venue "XMVL" "BCFS" "AR" Segment Active;
  Venue "BCMM" "BCMM" "BR" Operating Active;
  Venue "BCSE" "BCSE" "BY" Operating Active;
  Venue "CHIY" "BCXE" "GB" Segment Expired;
  Venue "CHIO" "BCXE" "GB" Segment Active;
  Venue "BATP" "BCXE" "GB" Segment Active;
  Venue "CHID" "BCXE" "GB" Segment Active;
  Venue "BOTC" "BCXE" "GB" Segment Active;
  Venue "BCXE" "BCXE" "GB" Operating Active;
  Venue "LISX" "BCXE" "GB" Segment Active;
  Venue "CHIX" "BCXE" "GB" Segment Active;
  Venue "BEAM" "BEAM" "BE" Operating Active;
  Venue "BEEX" "BEEX" "TH" Operating Active;
  Venue "BETP" "BETP" "JP" Operating Active;
  Venue "BFEX" "BFEX" "BH" Operating Expired;
  Venue "BGCF" "BGCF" "US" Operating Active;
  Venue "BGCD" "BGCF" "US" Segment Active;
  Venue "FNCS" "BGCF" "US" Segment Active;
  Venue "BGCB" "BGCI" "GB" Segment Active;
  Venue "BGCI" "BGCI" "GB" Operating Active;
  Venue "BHSF" "BHSF" "US" Operating Active;
  Venue "BIDS" "BIDS" "US" Operating Active;
  Venue "BLEV" "BLEV" "AU" Operating Active;
  Venue "BLPX" "BLPX" "BE" Operating Active;
  Venue "BPOL" "BPOL" "US" Operating Active;
  Venue "BLTD" "BLTD" "US" Operating Expired;
  Venue "SEND" "BMEX" "ES" Segment Active;
  Venue "XDRF" "BMEX" "ES" Segment Active;
  Venue "MARF" "BMEX" "ES" Segment Active;
  Venue "BMCL" "BMEX" "ES" Segment Active;
  Venue "MERF" "BMEX" "ES" Segment Active;
  Venue "XBIL" "BMEX" "ES" Segment Active;
  Venue "XMAD" "BMEX" "ES" Segment Active;
  Venue "BMEX" "BMEX" "ES" Operating Active;
  Venue "SBIL" "BMEX" "ES" Segment Active;
  Venue "SBAR" "BMEX" "ES" Segment Active;
  Venue "XVAL" "BMEX" "ES" Segment Active;
  Venue "XBAR" "BMEX" "ES" Segment Active;
  Venue "XLAT" "BMEX" "ES" Segment Active;
  Venue "XMEF" "BMEX" "ES" Segment Expired;
  Venue "XMPW" "BMEX" "ES" Segment Active;
  Venue "XMRV" "BMEX" "ES" Segment Active;
  Venue "BMTF" "BMTF" "GB" Operating Active;
  Venue "VTEX" "BNYC" "US" Segment Expired;
  Venue "NYFX" "BNYC" "US" Segment Expired;
  Venue "BNYC" "BNYC" "US" Operating Active;
  Venue "BOAT" "BOAT" "GB" Operating Active;
  Venue "BOSC" "BOSC" "GB" Operating Active;
  Venue "BOVA" "BOVA" "CL" Operating Active;
  Venue "BOVM" "BOVM" "BR" Operating Active;
  Venue "BRIX" "BRIX" "BR" Operating Active;
  Venue "BRNX" "BRNX" "GB" Operating Active;
  Venue "BSEX" "BSEX" "AZ" Operating Active;
  Venue "ICSU" "BTEC" "US" Segment Active;
  Venue "BTEC" "BTEC" "US" Operating Active;
  Venue "BVCA" "BVCA" "VE" Operating Active;
  Venue "XCAR" "BVCA" "VE" Segment Expired;
  Venue "BVMF" "BVMF" "BR" Operating Active;
  Venue "BVUR" "BVUR" "UY" Operating Active;
  Venue "CAND" "CAND" "CA" Operating Active;
  Venue "CANX" "CANX" "CA" Operating Active;
  Venue "CMAP" "CAPI" "ES" Segment Active;
  Venue "CATS" "CATS" "DE" Operating Active;
  Venue "CCFE" "CCFE" "US" Operating Expired;
  Venue "CCFX" "CCFX" "CN" Operating Active;
  Venue "CCLX" "CCLX" "LU" Operating Active;
  Venue "CCO2" "CCO2" "GB" Operating Active;
  Venue "CDED" "CDED" "US" Operating Active;
  Venue "CDEL" "CDEL" "US" Operating Expired;
  Venue "ASTR" "CDSL" "IN" Segment Active;
  Venue "FXCL" "CDSL" "IN" Segment Active;
  Venue "CDSL" "CDSL" "IN" Operating Active;
  Venue "FXSW" "CDSL" "IN" Segment Active;
  Venue "CETI" "BVMF" "BR" Segment Active;
  Venue "CGQD" "CGIT" "IT" Segment Active;
  Venue "CGDB" "CGIT" "IT" Segment Active;
  Venue "CGTR" "CGIT" "IT" Segment Active;
  Venue "CGIT" "CGIT" "IT" Operating Active;
  Venue "CGND" "CGIT" "IT" Segment Active;
  Venue "CGEB" "CGIT" "IT" Segment Active;
  Venue "CGQT" "CGIT" "IT" Segment Active;
  Venue "CGCM" "CGIT" "IT" Segment Active;
  Venue "CGGD" "CGIT" "IT" Segment Active;
  Venue "CHEV" "CHEV" "GB" Operating Active;
  Venue "BLNK" "CHEV" "GB" Segment Active;
  Venue "CXAR" "CHIA" "AU" Segment Active;
  Venue "CXAC" "CHIA" "AU" Segment Active;
  Venue "CXAP" "CHIA" "AU" Segment Active;
  Venue "CXAM" "CHIA" "AU" Segment Active;
  Venue "CXAQ" "CHIA" "AU" Segment Active;
  Venue "CXAV" "CHIA" "AU" Segment Active;
  Venue "CXAF" "CHIA" "AU" Segment Active;
  Venue "CXAN" "CHIA" "AU" Segment Active;
  Venue "CXAW" "CHIA" "AU" Segment Active;
  Venue "CHIA" "CHIA" "AU" Operating Active;
  Venue "XCX2" "CHIC" "CA" Segment Active;
  Venue "CHIC" "CHIC" "CA" Operating Active;
  Venue "CHIE" "CHIE" "SG" Operating Expired;
  Venue "CHIJ" "CHIJ" "JP" Operating Active;
  Venue "KAIX" "CHIJ" "JP" Segment Active;
  Venue "CHIS" "CHIJ" "JP" Segment Active;
  Venue "CHIV" "CHIJ" "JP" Segment Active;
  Venue "CLAU" "CLAU" "AU" Operating Active;
  Venue "CLHK" "CLHK" "HK" Operating Active;
  Venue "CLJP" "CLJP" "JP" Operating Active;
  Venue "CLMX" "CLMX" "NL" Operating Active;
  Venue "CLPH" "CLPH" "PH" Operating Active;
  Venue "CMEC" "CMEE" "GB" Segment Expired;
  Venue "CMEE" "CMEE" "GB" Operating Expired;
  Venue "CMET" "CMET" "JP" Operating Active;
  Venue "CMMT" "CMMT" "GB" Operating Active;
  Venue "CMSF" "CMSF" "US" Operating Active;
  Venue "COAL" "COAL" "FR" Operating Active;
  Venue "COMG" "COMG" "MT" Operating Active;
  Venue "COTC" "COTC" "CA" Operating Active;
  Venue "CRED" "CRED" "US" Operating Active;
  Venue "CAES" "CRED" "US" Segment Active;
  Venue "CRYD" "CRYD" "SE" Operating Active;
  Venue "CRYP" "CRYP" "GB" Operating Active;
  Venue "CRYX" "CRYX" "SE" Operating Active;
  Venue "CSSX" "CSSX" "CN" Operating Active;
  Venue "DASI" "DASI" "DK" Operating Active;
  Venue "DBHK" "DBHK" "HK" Operating Active;
  Venue "AUTO" "DBOX" "DE" Segment Active;
  Venue "DBOX" "DBOX" "DE" Operating Active;
  Venue "DBSX" "DBSX" "US" Operating Expired;
  Venue "DCSX" "DCSX" "CW" Operating Active;
  Venue "DEAL" "DEAL" "US" Operating Active;
  Venue "DGCX" "DGCX" "AE" Operating Active;
  Venue "DKTC" "DKTC" "DK" Operating Active;
  Venue "DOTS" "DOTS" "CH" Operating Active;
  Venue "DSMD" "DSMD" "QA" Operating Active;
  Venue "DUMX" "DUMX" "AE" Operating Active;
  Venue "ECAG" "ECAG" "DE" Operating Active;
  Venue "ECGS" "ECAG" "DE" Segment Active;
  Venue "ECAL" "ECAL" "SG" Operating Active;
  Venue "ECXE" "ECXE" "NL" Operating Expired;
  Venue "EEAL" "EEAL" "SG" Operating Active;
  Venue "EESE" "EESE" "UA" Operating Active;
  Venue "EFTP" "EFTP" "DE" Operating Expired;
  Venue "EGMT" "EGMT" "US" Operating Active;
  Venue "EGSI" "EGSI" "AT" Operating Active;
  Venue "EMBX" "EMBX" "GB" Operating Active;
  Venue "EMIB" "EMID" "IT" Segment Expired;
  Venue "EMID" "EMID" "IT" Operating Expired;
  Venue "EMIR" "EMID" "IT" Segment Expired;
  Venue "EMDR" "EMID" "IT" Segment Expired;
  Venue "ENCL" "ENCL" "GB" Operating Active;
  Venue "EOTC" "EOTC" "HK" Operating Active;
  Venue "EPEX" "EPEX" "FR" Operating Active;
  Venue "ETSC" "ETSC" "KZ" Operating Active;
  Venue "EXOR" "EXEU" "GB" Segment Active;
  Venue "EXVP" "EXEU" "GB" Segment Active;
  Venue "EXMP" "EXEU" "GB" Segment Active;
  Venue "EXLP" "EXEU" "GB" Segment Active;
  Venue "EXEU" "EXEU" "GB" Operating Active;
  Venue "EXCP" "EXEU" "GB" Segment Active;
  Venue "EXBO" "EXEU" "GB" Segment Active;
  Venue "EXDC" "EXEU" "GB" Segment Active;
  Venue "EXGM" "XMIL" "IT" Segment Active;
  Venue "XEDA" "EXTR" "TR" Segment Active;
  Venue "XEID" "EXTR" "TR" Segment Active;
  Venue "EXTR" "EXTR" "TR" Operating Active;
  Venue "FAIR" "FAIR" "GB" Operating Active;
  Venue "FGEX" "FGEX" "FI" Operating Active;
  Venue "XADF" "FINR" "US" Segment Active;
  Venue "FINC" "FINR" "US" Segment Active;
  Venue "FINO" "FINR" "US" Segment Active;
  Venue "FINR" "FINR" "US" Operating Active;
  Venue "FINY" "FINR" "US" Segment Active;
  Venue "OOTC" "FINR" "US" Segment Active;
  Venue "FISH" "FISH" "NO" Operating Active;
  Venue "FLTB" "FLWX" "NL" Segment Active;
  Venue "FMTS" "FMTS" "FR" Operating Active;
  Venue "FRRF" "FRRF" "BE" Operating Expired;
  Venue "FSEF" "FSEF" "US" Operating Active;
  Venue "FSHX" "FSHX" "NO" Operating Active;
  Venue "FXAL" "FXAL" "US" Operating Active;
  Venue "FXCM" "FXCM" "US" Operating Active;
  Venue "G1XX" "G1XX" "US" Operating Active;
  Venue "GEMX" "GEMX" "GB" Operating Active;
  Venue "GETB" "GETB" "LT" Operating Active;
  Venue "GFIA" "GFIA" "GB" Operating Expired;
  Venue "XGFI" "GFIC" "GB" Segment Expired;
  Venue "GFIM" "GFIC" "GB" Segment Expired;
  Venue "GLLC" "GLLC" "US" Operating Active;
  Venue "GLPS" "GLPS" "US" Operating Active;
  Venue "GLPX" "GLPX" "US" Operating Active;
  Venue "XGDX" "GMEG" "GB" Segment Active;
  Venue "XLDX" "GMEG" "GB" Segment Active;
  Venue "XGCX" "GMEG" "GB" Segment Active;
  Venue "GMEG" "GMEG" "GB" Operating Active;
  Venue "XGSX" "GMEG" "GB" Segment Active;
  Venue "GMEX" "GMEX" "DE" Operating Expired;
  Venue "GMTF" "GMTF" "FR" Operating Active;
  Venue "GOVX" "GOVX" "US" Operating Active;
  Venue "GREE" "GREE" "US" Operating Active;
  Venue "GRSE" "GRSE" "GB" Operating Active;
  Venue "GSCI" "GSCI" "GY" Operating Active;
  Venue "GSCO" "GSCO" "US" Operating Active;
  Venue "GSEF" "GSEF" "US" Operating Active;
  Venue "GSIL" "GSIL" "GB" Operating Active;
  Venue "GSSI" "GSIL" "GB" Segment Active;
  Venue "GSXL" "GSXL" "GI" Operating Active;
  Venue "GTCO" "GTCO" "US" Operating Active;
  Venue "GTSX" "GTSX" "US" Operating Active;
  Venue "GTXS" "GTXS" "US" Operating Expired;
  Venue "GXMA" "GXMA" "VU" Operating Active;
  Venue "HCHC" "HCHC" "NL" Operating Active;
  Venue "HDAT" "HDAT" "GR" Operating Active;
  Venue "HEGX" "HEGX" "US" Operating Active;
  Venue "HKME" "HKME" "HK" Operating Expired;
  Venue "HMOD" "HMTF" "IT" Segment Active;
  Venue "HMTF" "HMTF" "IT" Operating Active;
  Venue "HRFQ" "HMTF" "IT" Segment Active;
  Venue "HPPO" "HPPO" "US" Operating Active;
  Venue "HSFX" "HSFX" "US" Operating Active;
  Venue "HSTC" "HSTC" "VN" Operating Active;
  Venue "XHNX" "HSTC" "VN" Segment Active;
  Venue "HSXA" "HSXA" "HK" Operating Active;
  Venue "HUPX" "HUPX" "HU" Operating Active;
  Venue "IBAL" "IBAL" "GB" Operating Active;
  Venue "IBEX" "IBEX" "BG" Operating Active;
  Venue "WCLK" "ICAP" "GB" Segment Expired;
  Venue "ICAH" "ICAP" "GB" Segment Expired;
  Venue "ICSE" "ICAP" "GB" Segment Expired;
  Venue "ICTQ" "ICAP" "GB" Segment Expired;
  Venue "ICAP" "ICAP" "GB" Operating Expired;
  Venue "PLSX" "ICAP" "GB" Segment Expired;
  Venue "ICDX" "ICDX" "ID" Operating Active;
  Venue "ICEL" "ICEL" "US" Operating Active;
  Venue "ICXL" "ICXL" "IN" Operating Active;
  Venue "IFCA" "IFCA" "CA" Operating Expired;
  Venue "IFLX" "IFEU" "GB" Segment Active;
  Venue "IFLL" "IFEU" "GB" Segment Active;
  Venue "IFEN" "IFEU" "GB" Segment Active;
  Venue "IFLO" "IFEU" "GB" Segment Active;
  Venue "IFEU" "IFEU" "GB" Operating Active;
  Venue "IFUT" "IFEU" "GB" Segment Active;
  Venue "IFSG" "IFSG" "SG" Operating Active;
  Venue "IMFX" "IFUS" "US" Segment Active;
  Venue "IFED" "IFUS" "US" Segment Active;
  Venue "IFUS" "IFUS" "US" Operating Active;
  Venue "IEPA" "IFUS" "US" Segment Active;
  Venue "IMCG" "IFUS" "US" Segment Active;
  Venue "IMIR" "IFUS" "US" Segment Active;
  Venue "IMCR" "IFUS" "US" Segment Active;
  Venue "IMEN" "IFUS" "US" Segment Active;
  Venue "ICES" "IFUS" "US" Segment Active;
  Venue "IMAG" "IFUS" "US" Segment Active;
  Venue "IMBD" "IFUS" "US" Segment Active;
  Venue "IMEX" "IMEX" "IR" Operating Active;
  Venue "ISDA" "ISDA" "US" Operating Active;
  Venue "ISEX" "ISEX" "IN" Operating Active;
  Venue "ITGI" "ITGI" "US" Operating Active;
  Venue "IVZX" "IVZX" "CA" Operating Active;
  Venue "IXSP" "IXSP" "RU" Operating Expired;
  Venue "JADX" "JADX" "SG" Operating Active;
  Venue "JEFX" "JEFX" "US" Operating Expired;
  Venue "JNST" "JNST" "US" Operating Active;
  Venue "JPMI" "JPMI" "HK" Operating Active;
  Venue "JPMX" "JPMX" "US" Operating Active;
  Venue "JSES" "JSES" "US" Operating Active;
  Venue "JSJX" "JSJX" "US" Operating Active;
  Venue "VKAB" "KABU" "JP" Segment Expired;
  Venue "KABU" "KABU" "JP" Operating Expired;
  Venue "KCCP" "KCCP" "HU" Operating Active;
  Venue "KDPW" "KDPW" "PL" Operating Expired;
  Venue "KLEU" "KLEU" "GB" Operating Active;
  Venue "KNIG" "KNIG" "US" Operating Active;
  Venue "KNEM" "KNIG" "US" Segment Active;
  Venue "KNLI" "KNIG" "US" Segment Active;
  Venue "KNCM" "KNIG" "US" Segment Active;
  Venue "KOCN" "KOCN" "KR" Operating Expired;
  Venue "KRME" "KRME" "AE" Operating Active;
  Venue "LASF" "LASF" "US" Operating Active;
  Venue "LAFL" "LAVA" "US" Segment Expired;
  Venue "LAVA" "LAVA" "US" Operating Expired;
  Venue "LAFD" "LAVA" "US" Segment Expired;
  Venue "LCHC" "LCHC" "FR" Operating Active;
  Venue "LCUR" "LCUR" "GB" Operating Active;
  Venue "LICA" "LICA" "CA" Operating Active;
  Venue "LIQH" "LIQU" "GB" Segment Active;
  Venue "LIQU" "LIQU" "GB" Operating Active;
  Venue "LIQF" "LIQU" "GB" Segment Active;
  Venue "LIUS" "LIUS" "US" Operating Active;
  Venue "LIUH" "LIUS" "US" Segment Active;
  Venue "LIFI" "LIUS" "US" Segment Active;
  Venue "LMAD" "LMAX" "GB" Segment Updated;
  Venue "LMAX" "LMAX" "GB" Operating Updated;
  Venue "LOTC" "LOTC" "GB" Operating Active;
  Venue "PLDX" "LOTC" "GB" Segment Active;
  Venue "LPPM" "LPPM" "GB" Operating Active;
  Venue "LMNX" "LTAA" "US" Segment Active;
  Venue "LTAA" "LTAA" "US" Operating Active;
  Venue "LXJP" "LXJP" "JP" Operating Active;
  Venue "MAEL" "MAEL" "GB" Operating Active;
  Venue "MXLM" "MAEL" "GB" Segment Active;
  Venue "MALX" "MALX" "MV" Operating Active;
  Venue "MXNL" "MANL" "NL" Segment Active;
  Venue "MAQH" "MAQH" "HK" Operating Active;
  Venue "MAQJ" "MAQJ" "JP" Operating Active;
  Venue "MAQX" "MAQX" "AU" Operating Active;
  Venue "MATN" "MATN" "CA" Operating Active;
  Venue "MATX" "MATX" "AE" Operating Active;
  Venue "MBUL" "MBUL" "BG" Operating Active;
  Venue "MCXR" "MCUR" "GB" Segment Expired;
  Venue "MCXS" "MCUR" "GB" Segment Expired;
  Venue "MCUR" "MCUR" "GB" Operating Expired;
  Venue "MDIP" "MDIP" "PT" Operating Expired;
  Venue "MEAU" "MEAU" "AU" Operating Expired;
  Venue "MEHK" "MEHK" "HK" Operating Expired;
  Venue "MFGL" "MFGL" "GB" Operating Active;
  Venue "MIBG" "MIBG" "ES" Operating Active;
  Venue "EPRL" "MIHI" "US" Segment Active;
  Venue "MPRL" "MIHI" "US" Segment Active;
  Venue "MIHI" "MIHI" "US" Operating Active;
  Venue "XMIO" "MIHI" "US" Segment Active;
  Venue "MIZX" "MIZX" "JP" Operating Active;
  Venue "MLVE" "MLXN" "GB" Segment Expired;
  Venue "MLEU" "MLXN" "GB" Segment Expired;
  Venue "MSAL" "MSAL" "AU" Operating Active;
  Venue "MSPL" "MSCO" "US" Segment Active;
  Venue "MSTC" "MSCO" "US" Segment Expired;
  Venue "MSCO" "MSCO" "US" Operating Active;
  Venue "MSTX" "MSCO" "US" Segment Active;
  Venue "MSLP" "MSCO" "US" Segment Expired;
  Venue "MSIP" "MSIP" "GB" Operating Active;
  Venue "MSMS" "MSMS" "JP" Operating Active;
  Venue "BVUS" "MTUS" "US" Segment Expired;
  Venue "MTSB" "MTUS" "US" Segment Expired;
  Venue "MTXS" "MTXX" "US" Segment Active;
  Venue "MTXC" "MTXX" "US" Segment Active;
  Venue "MTXM" "MTXX" "US" Segment Active;
  Venue "MYTR" "MYTR" "GB" Operating Active;
  Venue "N2EX" "N2EX" "GB" Operating Active;
  Venue "NAMX" "NAMX" "RU" Operating Active;
  Venue "NASB" "NASB" "LT" Operating Expired;
  Venue "NASX" "NASX" "NG" Operating Active;
  Venue "NBLX" "NBLX" "US" Operating Active;
  Venue "NBOT" "NBOT" "IN" Operating Active;
  Venue "NCEL" "NCEL" "PK" Operating Active;
  Venue "NFSD" "NFSC" "US" Segment Active;
  Venue "XSTM" "NFSC" "US" Segment Active;
  Venue "NFSA" "NFSC" "US" Segment Active;
  Venue "NFSC" "NFSC" "US" Operating Active;
  Venue "NGXC" "NGXC" "CA" Operating Active;
  Venue "NILX" "NILX" "EG" Operating Active;
  Venue "NLPX" "NLPX" "NL" Operating Active;
  Venue "NMCE" "NMCE" "IN" Operating Active;
  Venue "NMRA" "NMRA" "US" Operating Active;
  Venue "ICSH" "NMRJ" "JP" Segment Active;
  Venue "ICSZ" "NMRJ" "JP" Segment Active;
  Venue "ICKR" "NMRJ" "JP" Segment Active;
  Venue "ICHK" "NMRJ" "JP" Segment Active;
  Venue "NXSE" "NMRJ" "JP" Segment Active;
  Venue "ICTW" "NMRJ" "JP" Segment Active;
  Venue "NNCS" "NNCS" "RU" Operating Expired;
  Venue "NODX" "NODX" "US" Operating Active;
  Venue "NOFF" "NOFF" "GB" Operating Active;
  Venue "NOPS" "NOPS" "NO" Operating Active;
  Venue "NOSC" "NOSC" "NO" Operating Active;
  Venue "NOTC" "NOTC" "NO" Operating Active;
  Venue "NPGA" "NPGA" "DK" Operating Active;
  Venue "NSXB" "NSXB" "AU" Operating Active;
  Venue "NXEU" "NXEU" "GB" Operating Active;
  Venue "NXUS" "NXUS" "US" Operating Active;
  Venue "NYMX" "NYMX" "GB" Operating Expired;
  Venue "NYPC" "NYPC" "US" Operating Active;
  Venue "OFEX" "OFEX" "GB" Operating Expired;
  Venue "OLLC" "OLLC" "US" Operating Active;
  Venue "OMEL" "OMEL" "ES" Operating Active;
  Venue "OMGA" "OMGA" "CA" Operating Active;
  Venue "LYNX" "OMGA" "CA" Segment Active;
  Venue "OMIC" "OMIC" "PT" Operating Active;
  Venue "OPEX" "OPEX" "PT" Operating Expired;
  Venue "OPRA" "OPRA" "US" Operating Active;
  Venue "OSLC" "OSLC" "NO" Operating Active;
  Venue "OTCE" "OTCE" "GB" Operating Active;
  Venue "OTCX" "OTCX" "IN" Operating Active;
  Venue "PAVE" "PAVE" "ES" Operating Active;
  Venue "PDEX" "PDEX" "PH" Operating Active;
  Venue "PFTS" "PFTS" "UA" Operating Active;
  Venue "PFTQ" "PFTS" "UA" Segment Active;
  Venue "PIEU" "PIEU" "GB" Operating Active;
  Venue "PIPE" "PIPE" "US" Operating Active;
  Venue "PIRM" "PIRM" "GB" Operating Active;
  Venue "PMTS" "PMTS" "PT" Operating Expired;
  Venue "PRSE" "PRSE" "US" Operating Active;
  Venue "PVMF" "TPEO" "GB" Segment Active;
  Venue "PXIL" "PXIL" "IN" Operating Active;
  Venue "XQLX" "QMTF" "HU" Segment Expired;
  Venue "QMTF" "QMTF" "HU" Operating Expired;
  Venue "QWIX" "QWIX" "GB" Operating Active;
  Venue "RBSX" "RBSX" "GB" Operating Active;
  Venue "RICX" "RICX" "US" Operating Expired;
  Venue "RICD" "RICX" "US" Segment Expired;
  Venue "ROCO" "ROCO" "TW" Operating Active;
  Venue "ROFX" "ROFX" "AR" Operating Active;
  Venue "ROTC" "ROTC" "RW" Operating Active;
  Venue "RPDX" "RPDX" "RU" Operating Active;
  Venue "RSEX" "RSEX" "RW" Operating Active;
  Venue "RTSP" "RTSP" "SG" Operating Active;
  Venue "S3FM" "S3FM" "CH" Operating Active;
  Venue "SECC" "SECC" "SC" Operating Active;
  Venue "SECD" "SECD" "SC" Operating Active;
  Venue "SECE" "SECE" "SC" Operating Active;
  Venue "SECF" "SECF" "GB" Operating Active;
  Venue "SEDC" "SEDC" "SC" Operating Active;
  Venue "SELC" "SELC" "BR" Operating Active;
  Venue "SEPE" "SEPE" "UA" Operating Active;
  Venue "SGEX" "SGEX" "CN" Operating Active;
  Venue "SGMA" "SGMA" "US" Operating Active;
  Venue "SHAR" "SHAR" "GB" Operating Active;
  Venue "SHAW" "SHAW" "US" Operating Active;
  Venue "SHAD" "SHAW" "US" Segment Active;
  Venue "SIGA" "SIGA" "AU" Operating Active;
  Venue "SIGJ" "SIGJ" "JP" Operating Active;
  Venue "SIGX" "SIGX" "US" Operating Expired;
  Venue "SIMV" "SIMV" "AU" Operating Active;
  Venue "SLXT" "SLXT" "GB" Operating Expired;
  Venue "SMEX" "SMEX" "SG" Operating Active;
  Venue "SOHO" "SOHO" "US" Operating Active;
  Venue "SPIM" "SPIM" "RU" Operating Active;
  Venue "SPRZ" "SPRZ" "GB" Operating Active;
  Venue "SPXE" "SPXE" "SK" Operating Active;
  Venue "SSEX" "SSEX" "GB" Operating Active;
  Venue "SSTX" "SSTX" "US" Operating Active;
  Venue "XSTV" "STOX" "CH" Segment Active;
  Venue "STOX" "STOX" "CH" Operating Active;
  Venue "XSCU" "STOX" "CH" Segment Active;
  Venue "XSTX" "STOX" "CH" Segment Active;
  Venue "SWAP" "SWAP" "GB" Operating Active;
  Venue "SXSI" "SXSI" "DK" Operating Active;
  Venue "TERA" "TERA" "US" Operating Active;
  Venue "TFEX" "TFEX" "TH" Operating Active;
  Venue "TFSA" "TFSA" "SG" Operating Active;
  Venue "TFSU" "TFSU" "US" Operating Active;
  Venue "TFSV" "TFSV" "GB" Operating Expired;
  Venue "TLAB" "TLAB" "IT" Operating Expired;
  Venue "TMID" "TMID" "US" Operating Active;
  Venue "TOCP" "TOCP" "HK" Operating Active;
  Venue "TPIE" "TPIE" "GB" Operating Active;
  Venue "TPIM" "TPIM" "GB" Operating Expired;
  Venue "TPSE" "TPSE" "US" Operating Active;
  Venue "TPSV" "TPSE" "US" Segment Active;
  Venue "TRCK" "TRCK" "US" Operating Active;
  Venue "TFSS" "TRDE" "GB" Segment Expired;
  Venue "DBVX" "TRDE" "GB" Segment Expired;
  Venue "TFSC" "TRDE" "GB" Segment Expired;
  Venue "OILX" "TRDE" "GB" Segment Expired;
  Venue "TCME" "TRDE" "GB" Segment Expired;
  Venue "TFSE" "TRDE" "GB" Segment Expired;
  Venue "TREU" "TREU" "GB" Operating Active;
  Venue "TRQX" "TRQX" "GB" Operating Active;
  Venue "TRQD" "TRQX" "GB" Segment Expired;
  Venue "TRU2" "TRUX" "US" Segment Active;
  Venue "TRU1" "TRUX" "US" Segment Active;
  Venue "TRUX" "TRUX" "US" Operating Active;
  Venue "BNDD" "TRWB" "US" Segment Active;
  Venue "TRWB" "TRWB" "US" Operating Active;
  Venue "TWSF" "TRWB" "US" Segment Active;
  Venue "DWSF" "TRWB" "US" Segment Active;
  Venue "TRFX" "TRWB" "US" Segment Expired;
  Venue "TSEF" "TSEF" "US" Operating Active;
  Venue "TWEU" "TWEU" "NL" Operating Active;
  Venue "TWEM" "TWEU" "NL" Segment Active;
  Venue "TWEA" "TWEU" "NL" Segment Active;
  Venue "TWEO" "TWEU" "NL" Segment Active;
  Venue "UBSP" "UBSA" "US" Segment Active;
  Venue "UBSC" "UBSG" "CH" Segment Active;
  Venue "UBSG" "UBSG" "CH" Operating Active;
  Venue "UBSF" "UBSG" "CH" Segment Active;
  Venue "UBST" "UBST" "CH" Operating Expired;
  Venue "UBSX" "UBSX" "HK" Operating Active;
  Venue "UKEX" "UKEX" "UA" Operating Active;
  Venue "UKPX" "UKPX" "GB" Operating Active;
  Venue "ULTX" "ULTX" "UG" Operating Active;
  Venue "VEGA" "VEGA" "GB" Operating Active;
  Venue "VFCM" "VFCM" "US" Operating Active;
  Venue "VMFX" "VMFX" "FO" Operating Active;
  Venue "WSAG" "WSAG" "US" Operating Active;
  Venue "XABJ" "XABJ" "CI" Operating Expired;
  Venue "XACE" "XACE" "NL" Operating Expired;
  Venue "XADS" "XADS" "AE" Operating Active;
  Venue "XAEX" "XAEX" "NL" Operating Expired;
  Venue "XAFR" "XAFR" "FR" Operating Active;
  Venue "XAFX" "XAFX" "MU" Operating Active;
  Venue "XALB" "XALB" "CA" Operating Expired;
  Venue "XALG" "XALG" "DZ" Operating Active;
  Venue "XEUC" "XAMS" "NL" Segment Active;
  Venue "XAMS" "XAMS" "NL" Operating Active;
  Venue "XEUI" "XAMS" "NL" Segment Active;
  Venue "TNLA" "XAMS" "NL" Segment Active;
  Venue "XHFT" "XAMS" "NL" Segment Expired;
  Venue "XEUE" "XAMS" "NL" Segment Active;
  Venue "XANT" "XANT" "BE" Operating Expired;
  Venue "XAOM" "XAOM" "AU" Operating Expired;
  Venue "XAPI" "XAPI" "RU" Operating Expired;
  Venue "XAQS" "XAQS" "US" Operating Active;
  Venue "XARC" "XARC" "US" Operating Expired;
  Venue "XARM" "XARM" "AM" Operating Active;
  Venue "XASX" "XASX" "AU" Operating Active;
  Venue "ASXT" "XASX" "AU" Segment Active;
  Venue "ASXB" "XASX" "AU" Segment Active;
  Venue "ASXV" "XASX" "AU" Segment Active;
  Venue "ASXP" "XASX" "AU" Segment Active;
  Venue "XSFE" "XASX" "AU" Segment Active;
  Venue "XATS" "XATS" "CA" Operating Active;
  Venue "XAUK" "XAUK" "NZ" Operating Expired;
  Venue "XAZX" "XAZX" "US" Operating Expired;
  Venue "XBAA" "XBAA" "BS" Operating Active;
  Venue "XBAB" "XBAB" "BB" Operating Active;
  Venue "BAJM" "XBAB" "BB" Segment Active;
  Venue "XBAH" "XBAH" "BH" Operating Active;
  Venue "XBAN" "XBAN" "IN" Operating Active;
  Venue "XBAV" "XBAV" "ES" Operating Expired;
  Venue "XBBF" "XBBF" "BR" Operating Expired;
  Venue "XBBJ" "XBBJ" "ID" Operating Active;
  Venue "XBBK" "XBBK" "CA" Operating Active;
  Venue "XBCC" "XBCC" "AR" Operating Active;
  Venue "MVCX" "XBCC" "AR" Segment Active;
  Venue "XBCE" "XBCE" "HU" Operating Expired;
  Venue "XBCL" "XBCL" "CL" Operating Active;
  Venue "XBCM" "XBCM" "AR" Operating Active;
  Venue "XBCX" "XBCM" "AR" Segment Active;
  Venue "XBCV" "XBCV" "HN" Operating Active;
  Venue "XBDA" "XBDA" "BM" Operating Active;
  Venue "BERA" "XBER" "DE" Segment Active;
  Venue "BERB" "XBER" "DE" Segment Active;
  Venue "BERC" "XBER" "DE" Segment Active;
  Venue "XBER" "XBER" "DE" Operating Active;
  Venue "ZOBX" "XBER" "DE" Segment Active;
  Venue "EQTA" "XBER" "DE" Segment Active;
  Venue "EQTB" "XBER" "DE" Segment Active;
  Venue "EQTC" "XBER" "DE" Segment Active;
  Venue "EQTD" "XBER" "DE" Segment Active;
  Venue "XEQT" "XBER" "DE" Segment Active;
  Venue "XBEY" "XBEY" "LB" Operating Active;
  Venue "XBFO" "XBFO" "BE" Operating Expired;
  Venue "XMAI" "XBKK" "TH" Segment Active;
  Venue "XBKK" "XBKK" "TH" Operating Active;
  Venue "XBKF" "XBKK" "TH" Segment Active;
  Venue "XBLN" "XBLN" "FR" Operating Active;
  Venue "XBNV" "XBNV" "CR" Operating Active;
  Venue "XBOG" "XBOG" "CO" Operating Active;
  Venue "XBOL" "XBOL" "BO" Operating Active;
  Venue "XBOM" "XBOM" "IN" Operating Active;
  Venue "BSME" "XBOM" "IN" Segment Active;
  Venue "BOTE" "XBOT" "BW" Segment Active;
  Venue "XBOT" "XBOT" "BW" Operating Active;
  Venue "BOTV" "XBOT" "BW" Segment Active;
  Venue "XBRA" "XBRA" "SK" Operating Active;
  Venue "XBRE" "XBRE" "DE" Operating Expired;
  Venue "XBRM" "XBRM" "RO" Operating Active;
  Venue "EQWB" "XBRN" "CH" Segment Expired;
  Venue "XBRN" "XBRN" "CH" Operating Active;
  Venue "VPXB" "XBRU" "BE" Segment Active;
  Venue "TNLB" "XBRU" "BE" Segment Active;
  Venue "XBRU" "XBRU" "BE" Operating Active;
  Venue "XBRD" "XBRU" "BE" Segment Active;
  Venue "XBRV" "XBRV" "CI" Operating Active;
  Venue "XRAS" "XBSE" "RO" Segment Active;
  Venue "XBSE" "XBSE" "RO" Operating Active;
  Venue "XBSD" "XBSE" "RO" Segment Active;
  Venue "XBTF" "XBTF" "US" Operating Expired;
  Venue "XBUD" "XBUD" "HU" Operating Active;
  Venue "XTND" "XBUD" "HU" Segment Active;
  Venue "XBUE" "XBUE" "AR" Operating Active;
  Venue "XMEV" "XBUE" "AR" Segment Active;
  Venue "XBUL" "XBUL" "BG" Operating Active;
  Venue "ABUL" "XBUL" "BG" Segment Active;
  Venue "XBVC" "XBVC" "CV" Operating Active;
  Venue "XBVP" "XBVP" "BR" Operating Expired;
  Venue "XBVR" "XBVR" "DO" Operating Active;
  Venue "XCAI" "XCAI" "EG" Operating Active;
  Venue "XCAL" "XCAL" "IN" Operating Active;
  Venue "XCAS" "XCAS" "MA" Operating Active;
  Venue "XCAY" "XCAY" "KY" Operating Active;
  Venue "CBSX" "XCBO" "US" Segment Active;
  Venue "XCBF" "XCBO" "US" Segment Active;
  Venue "XCBT" "XCBT" "US" Operating Active;
  Venue "FCBT" "XCBT" "US" Segment Active;
  Venue "XKBT" "XCBT" "US" Segment Active;
  Venue "XCCE" "XCCE" "JP" Operating Expired;
  Venue "XCCX" "XCCX" "US" Operating Expired;
  Venue "XCDE" "XCDE" "IE" Operating Active;
  Venue "XCET" "XCET" "UZ" Operating Active;
  Venue "XCFE" "XCFE" "CN" Operating Active;
  Venue "XCFF" "XCFF" "US" Operating Active;
  Venue "XCGS" "XCGS" "HK" Operating Active;
  Venue "XCHG" "XCHG" "BD" Operating Active;
  Venue "XCIE" "XCIE" "GG" Operating Active;
  Venue "FCME" "XCME" "US" Segment Active;
  Venue "XIMM" "XCME" "US" Segment Active;
  Venue "XCME" "XCME" "US" Operating Active;
  Venue "GLBX" "XCME" "US" Segment Active;
  Venue "XIOM" "XCME" "US" Segment Active;
  Venue "CMES" "XCME" "US" Segment Active;
  Venue "CBTS" "XCME" "US" Segment Active;
  Venue "NYMS" "XCME" "US" Segment Active;
  Venue "CECS" "XCME" "US" Segment Active;
  Venue "XCNF" "XCNF" "AR" Operating Active;
  Venue "XCOL" "XCOL" "LK" Operating Active;
  Venue "XCOR" "XCOR" "GB" Operating Active;
  Venue "XCRC" "XCRC" "US" Operating Expired;
  Venue "XCRO" "XCRO" "HR" Operating Active;
  Venue "XCSC" "XCSC" "US" Operating Expired;
  Venue "DCSE" "XCSE" "DK" Segment Active;
  Venue "XCSE" "XCSE" "DK" Operating Active;
  Venue "MNDK" "XCSE" "DK" Segment Active;
  Venue "FNDK" "XCSE" "DK" Segment Active;
  Venue "DNDK" "XCSE" "DK" Segment Active;
  Venue "MCSE" "XCSE" "DK" Segment Active;
  Venue "XFND" "XCSE" "DK" Segment Expired;
  Venue "XCSX" "XCSX" "KH" Operating Active;
  Venue "XCUE" "XCUE" "UZ" Operating Active;
  Venue "XCUR" "XCUR" "US" Operating Active;
  Venue "XCXD" "XCXD" "CA" Operating Active;
  Venue "XCYO" "XCYS" "CY" Segment Active;
  Venue "XCYS" "XCYS" "CY" Operating Active;
  Venue "XECM" "XCYS" "CY" Segment Active;
  Venue "XDAR" "XDAR" "TZ" Operating Active;
  Venue "XDCE" "XDCE" "CN" Operating Active;
  Venue "XDES" "XDES" "IN" Operating Active;
  Venue "XDFB" "XDFB" "UA" Operating Active;
  Venue "XDFM" "XDFM" "AE" Operating Active;
  Venue "XDHA" "XDHA" "BD" Operating Active;
  Venue "XDPA" "XDPA" "ES" Operating Active;
  Venue "XDSE" "XDSE" "SY" Operating Active;
  Venue "XDSX" "XDSX" "CM" Operating Active;
  Venue "XDTB" "XDTB" "DE" Operating Expired;
  Venue "DUSA" "XDUS" "DE" Segment Active;
  Venue "DUSB" "XDUS" "DE" Segment Active;
  Venue "DUSC" "XDUS" "DE" Segment Active;
  Venue "DUSD" "XDUS" "DE" Segment Active;
  Venue "XDUS" "XDUS" "DE" Operating Active;
  Venue "XQTX" "XDUS" "DE" Segment Active;
  Venue "XDWZ" "XDWZ" "DE" Operating Expired;
  Venue "XEBI" "XEBI" "IE" Operating Active;
  Venue "XECB" "XECB" "DE" Operating Active;
  Venue "XECC" "XECC" "DE" Operating Active;
  Venue "XECS" "XECS" "KN" Operating Active;
  Venue "XELX" "XELX" "US" Operating Active;
  Venue "XEMD" "XEMD" "MX" Operating Active;
  Venue "XEMS" "XEMS" "NL" Operating Active;
  Venue "XETD" "XETI" "DE" Segment Expired;
  Venue "XETI" "XETI" "DE" Operating Expired;
  Venue "XETC" "XETI" "DE" Segment Expired;
  Venue "XETR" "XETR" "DE" Operating Active;
  Venue "XETB" "XETR" "DE" Segment Active;
  Venue "XETA" "XETR" "DE" Segment Active;
  Venue "XERT" "XEUP" "DE" Segment Active;
  Venue "XERE" "XEUP" "DE" Segment Active;
  Venue "XEUM" "XEUP" "DE" Segment Active;
  Venue "XEUP" "XEUP" "DE" Operating Active;
  Venue "XEUR" "XEUR" "DE" Operating Active;
  Venue "XFCM" "XFCM" "ES" Operating Expired;
  Venue "XFFE" "XFFE" "JP" Operating Expired;
  Venue "XFKA" "XFKA" "JP" Operating Active;
  Venue "XFMN" "XFMN" "FR" Operating Expired;
  Venue "XFOM" "XFOM" "FI" Operating Expired;
  Venue "XDBC" "XFRA" "DE" Segment Expired;
  Venue "XFRA" "XFRA" "DE" Operating Active;
  Venue "XDBV" "XFRA" "DE" Segment Expired;
  Venue "FRAA" "XFRA" "DE" Segment Active;
  Venue "FRAD" "XFRA" "DE" Segment Expired;
  Venue "FRAB" "XFRA" "DE" Segment Active;
  Venue "XDBX" "XFRA" "DE" Segment Expired;
  Venue "XNEW" "XFRA" "DE" Segment Expired;
  Venue "XFTA" "XFTA" "NL" Operating Expired;
  Venue "XGAS" "XGAS" "HU" Operating Active;
  Venue "XGCL" "XGCL" "GB" Operating Active;
  Venue "XGHA" "XGHA" "GH" Operating Active;
  Venue "XGME" "XGME" "IT" Operating Active;
  Venue "XGMX" "XGMX" "US" Operating Active;
  Venue "XGSE" "XGSE" "GE" Operating Active;
  Venue "XGTG" "XGTG" "GT" Operating Active;
  Venue "XGUA" "XGUA" "EC" Operating Active;
  Venue "HAMA" "XHAM" "DE" Segment Active;
  Venue "HAMB" "XHAM" "DE" Segment Active;
  Venue "XHAM" "XHAM" "DE" Operating Active;
  Venue "HAMM" "XHAM" "DE" Segment Active;
  Venue "HAML" "XHAM" "DE" Segment Expired;
  Venue "HAMN" "XHAM" "DE" Segment Active;
  Venue "HANB" "XHAN" "DE" Segment Active;
  Venue "HANA" "XHAN" "DE" Segment Active;
  Venue "XHAN" "XHAN" "DE" Operating Active;
  Venue "MNFI" "XHEL" "FI" Segment Active;
  Venue "FNFI" "XHEL" "FI" Segment Active;
  Venue "DNFI" "XHEL" "FI" Segment Active;
  Venue "XHEL" "XHEL" "FI" Operating Active;
  Venue "DHEL" "XHEL" "FI" Segment Active;
  Venue "MHEL" "XHEL" "FI" Segment Active;
  Venue "XHIR" "XHIR" "JP" Operating Expired;
  Venue "XHKF" "XHKF" "HK" Operating Active;
  Venue "XHKG" "XHKG" "HK" Operating Active;
  Venue "SHSC" "XHKG" "HK" Segment Active;
  Venue "SZSC" "XHKG" "HK" Segment Active;
  Venue "XGEM" "XHKG" "HK" Segment Active;
  Venue "XIAB" "XIAB" "TR" Operating Expired;
  Venue "XIBE" "XIBE" "AZ" Operating Active;
  Venue "FNIS" "XICE" "IS" Segment Active;
  Venue "MICE" "XICE" "IS" Segment Active;
  Venue "XICE" "XICE" "IS" Operating Active;
  Venue "DNIS" "XICE" "IS" Segment Active;
  Venue "ISEC" "XICE" "IS" Segment Expired;
  Venue "DICE" "XICE" "IS" Segment Active;
  Venue "MNIS" "XICE" "IS" Segment Active;
  Venue "XICX" "XICX" "CA" Operating Active;
  Venue "XIDX" "XIDX" "ID" Operating Active;
  Venue "XIHK" "XIHK" "HK" Operating Active;
  Venue "XIMA" "XIMA" "NO" Operating Active;
  Venue "XIMC" "XIMC" "IN" Operating Active;
  Venue "XIME" "XIME" "TW" Operating Expired;
  Venue "ICRO" "XINS" "US" Segment Active;
  Venue "XINS" "XINS" "US" Operating Active;
  Venue "ICBX" "XINS" "US" Segment Active;
  Venue "MOCX" "XINS" "US" Segment Active;
  Venue "XINV" "XINV" "DE" Operating Active;
  Venue "XIPE" "XIPE" "GB" Operating Expired;
  Venue "XIQS" "XIQS" "IQ" Operating Active;
  Venue "XPMS" "XIST" "TR" Segment Active;
  Venue "XFNO" "XIST" "TR" Segment Active;
  Venue "XDSM" "XIST" "TR" Segment Active;
  Venue "XIST" "XIST" "TR" Operating Active;
  Venue "XEQY" "XIST" "TR" Segment Active;
  Venue "XISE" "XISX" "US" Segment Active;
  Venue "GMNI" "XISX" "US" Segment Active;
  Venue "XTPZ" "XISX" "US" Segment Expired;
  Venue "MCRY" "XISX" "US" Segment Active;
  Venue "XISA" "XISX" "US" Segment Active;
  Venue "XISX" "XISX" "US" Operating Active;
  Venue "XJAM" "XJAM" "JM" Operating Active;
  Venue "XJNB" "XJNB" "ID" Operating Active;
  Venue "XTK1" "XJPX" "JP" Segment Active;
  Venue "XJAS" "XJPX" "JP" Segment Expired;
  Venue "XTKS" "XJPX" "JP" Segment Active;
  Venue "XOSE" "XJPX" "JP" Segment Active;
  Venue "XTAM" "XJPX" "JP" Segment Active;
  Venue "XTK3" "XJPX" "JP" Segment Active;
  Venue "XTK2" "XJPX" "JP" Segment Active;
  Venue "XJPX" "XJPX" "JP" Operating Active;
  Venue "XOSJ" "XJPX" "JP" Segment Active;
  Venue "XBES" "XJSE" "ZA" Segment Active;
  Venue "XJSE" "XJSE" "ZA" Operating Active;
  Venue "ALTX" "XJSE" "ZA" Segment Active;
  Venue "XSAF" "XJSE" "ZA" Segment Active;
  Venue "XSFA" "XJSE" "ZA" Segment Active;
  Venue "YLDX" "XJSE" "ZA" Segment Active;
  Venue "XJWY" "XJWY" "GB" Operating Expired;
  Venue "XKAC" "XKAC" "JP" Operating Active;
  Venue "XKAZ" "XKAZ" "KZ" Operating Active;
  Venue "XKCE" "XKCE" "UZ" Operating Active;
  Venue "XKFB" "XKFB" "KR" Operating Active;
  Venue "XKGT" "XKGT" "JP" Operating Expired;
  Venue "XKHA" "XKHA" "SD" Operating Active;
  Venue "XKHR" "XKHR" "UA" Operating Active;
  Venue "XKIE" "XKIE" "UA" Operating Active;
  Venue "XKIS" "XKIS" "UA" Operating Active;
  Venue "XKKT" "XKKT" "JP" Operating Expired;
  Venue "XKLS" "XKLS" "MY" Operating Active;
  Venue "MESQ" "XKLS" "MY" Segment Active;
  Venue "XKOR" "XKOR" "KR" Operating Expired;
  Venue "XKON" "XKRX" "KR" Segment Active;
  Venue "XKRX" "XKRX" "KR" Operating Active;
  Venue "XKFE" "XKRX" "KR" Segment Active;
  Venue "XKOS" "XKRX" "KR" Segment Active;
  Venue "XKCM" "XKRX" "KR" Segment Active;
  Venue "XKEM" "XKRX" "KR" Segment Active;
  Venue "XKSE" "XKSE" "KG" Operating Active;
  Venue "XKST" "XKST" "JP" Operating Expired;
  Venue "XKUW" "XKUW" "KW" Operating Active;
  Venue "XKYO" "XKYO" "JP" Operating Expired;
  Venue "XLAO" "XLAO" "LA" Operating Active;
  Venue "XLBM" "XLBM" "GB" Operating Active;
  Venue "XLCE" "XLCE" "GB" Operating Expired;
  Venue "XLDN" "XLDN" "GB" Operating Expired;
  Venue "XLIF" "XLDN" "GB" Segment Expired;
  Venue "XLFX" "XLFX" "MY" Operating Active;
  Venue "XLIM" "XLIM" "PE" Operating Active;
  Venue "MFOX" "XLIS" "PT" Segment Active;
  Venue "WQXL" "XLIS" "PT" Segment Active;
  Venue "FNLT" "XLIT" "LT" Segment Active;
  Venue "XLIT" "XLIT" "LT" Operating Active;
  Venue "XLJM" "XLJU" "SI" Segment Active;
  Venue "XLJU" "XLJU" "SI" Operating Active;
  Venue "XLME" "XLME" "GB" Operating Active;
  Venue "XLON" "XLON" "GB" Operating Active;
  Venue "XLSM" "XLSM" "LY" Operating Active;
  Venue "XLTO" "XLTO" "GB" Operating Expired;
  Venue "XLUS" "XLUS" "ZM" Operating Active;
  Venue "XLUX" "XLUX" "LU" Operating Active;
  Venue "EMTF" "XLUX" "LU" Segment Active;
  Venue "XMAB" "XMAB" "AR" Operating Active;
  Venue "XMAC" "XMAC" "US" Operating Expired;
  Venue "XMAE" "XMAE" "MK" Operating Active;
  Venue "PROS" "XMAL" "MT" Segment Active;
  Venue "XMAN" "XMAN" "NI" Operating Active;
  Venue "XMAP" "XMAP" "MZ" Operating Expired;
  Venue "XMAU" "XMAU" "MU" Operating Active;
  Venue "XMDG" "XMDG" "MG" Operating Active;
  Venue "XMDS" "XMDS" "IN" Operating Active;
  Venue "XMER" "XMER" "US" Operating Active;
  Venue "XMEX" "XMEX" "MX" Operating Active;
  Venue "XMGE" "XMGE" "US" Operating Active;
  Venue "XMID" "XMID" "US" Operating Expired;
  Venue "XMIF" "XMIF" "IT" Operating Expired;
  Venue "MTAH" "XMIL" "IT" Segment Active;
  Venue "ATFX" "XMIL" "IT" Segment Active;
  Venue "XMIL" "XMIL" "IT" Operating Active;
  Venue "MIVX" "XMIL" "IT" Segment Active;
  Venue "XAIM" "XMIL" "IT" Segment Expired;
  Venue "XDMI" "XMIL" "IT" Segment Active;
  Venue "MACX" "XMIL" "IT" Segment Expired;
  Venue "MTAA" "XMIL" "IT" Segment Active;
  Venue "XMLX" "XMLX" "GB" Operating Expired;
  Venue "XMNT" "XMNT" "UY" Operating Active;
  Venue "XMNX" "XMNX" "ME" Operating Active;
  Venue "XMOC" "XMOC" "CA" Operating Active;
  Venue "XMOD" "XMOD" "CA" Operating Active;
  Venue "XMOL" "XMOL" "MD" Operating Active;
  Venue "XMOO" "XMOO" "CA" Operating Expired;
  Venue "XMSW" "XMSW" "MW" Operating Active;
  Venue "XMTB" "XMTB" "AR" Operating Active;
  Venue "CMTS" "XMTS" "GB" Segment Expired;
  Venue "TMTS" "XMTS" "GB" Segment Expired;
  Venue "LMTS" "XMTS" "GB" Segment Expired;
  Venue "EACM" "XMTS" "GB" Segment Expired;
  Venue "BVUK" "XMTS" "GB" Segment Active;
  Venue "XMTS" "XMTS" "GB" Operating Active;
  Venue "NMTS" "XMTS" "GB" Segment Expired;
  Venue "PLUS" "XMUN" "DE" Segment Expired;
  Venue "XMUS" "XMUS" "OM" Operating Active;
  Venue "XNAF" "XNAF" "ES" Operating Active;
  Venue "XNAI" "XNAI" "KE" Operating Active;
  Venue "XNAM" "XNAM" "NA" Operating Active;
  Venue "NASD" "XNAS" "US" Segment Active;
  Venue "XNMS" "XNAS" "US" Segment Active;
  Venue "XNAS" "XNAS" "US" Operating Active;
  Venue "XNDQ" "XNAS" "US" Segment Active;
  Venue "XNGS" "XNAS" "US" Segment Active;
  Venue "XNCM" "XNAS" "US" Segment Active;
  Venue "XNIM" "XNAS" "US" Segment Active;
  Venue "XBOS" "XNAS" "US" Segment Active;
  Venue "BOSD" "XNAS" "US" Segment Active;
  Venue "XBXO" "XNAS" "US" Segment Active;
  Venue "XPOR" "XNAS" "US" Segment Active;
  Venue "XPSX" "XNAS" "US" Segment Active;
  Venue "XBRT" "XNAS" "US" Segment Active;
  Venue "PSXD" "XNAS" "US" Segment Active;
  Venue "XPBT" "XNAS" "US" Segment Active;
  Venue "XPHO" "XNAS" "US" Segment Active;
  Venue "XPHL" "XNAS" "US" Segment Active;
  Venue "XNCD" "XNCD" "IN" Operating Active;
  Venue "XNEC" "XNEC" "AU" Operating Active;
  Venue "XNEE" "XNEE" "NZ" Operating Expired;
  Venue "XNEP" "XNEP" "NP" Operating Active;
  Venue "XNGM" "XNGM" "SE" Operating Active;
  Venue "NMTF" "XNGM" "SE" Segment Active;
  Venue "XNGO" "XNGO" "JP" Operating Active;
  Venue "XNII" "XNII" "JP" Operating Expired;
  Venue "XNKS" "XNKS" "JP" Operating Active;
  Venue "XNQL" "XNQL" "US" Operating Expired;
  Venue "XNSA" "XNSA" "NG" Operating Active;
  Venue "INSE" "XNSE" "IN" Segment Active;
  Venue "XNSE" "XNSE" "IN" Operating Active;
  Venue "XNST" "XNST" "JP" Operating Expired;
  Venue "XNYC" "XNYC" "US" Operating Expired;
  Venue "XNYM" "XNYM" "US" Operating Active;
  Venue "XCEC" "XNYM" "US" Segment Active;
  Venue "XNYE" "XNYM" "US" Segment Active;
  Venue "XNYL" "XNYM" "US" Segment Active;
  Venue "ALDP" "XNYS" "US" Segment Active;
  Venue "ARCX" "XNYS" "US" Segment Active;
  Venue "XNYS" "XNYS" "US" Operating Active;
  Venue "XASE" "XNYS" "US" Segment Active;
  Venue "XNLI" "XNYS" "US" Segment Active;
  Venue "NYSD" "XNYS" "US" Segment Active;
  Venue "AMXO" "XNYS" "US" Segment Active;
  Venue "ARCD" "XNYS" "US" Segment Active;
  Venue "ARCO" "XNYS" "US" Segment Active;
  Venue "XNZE" "XNZE" "NZ" Operating Active;
  Venue "XODE" "XODE" "UA" Operating Active;
  Venue "XOFF" "XOFF" "ZZ" Operating Active;
  Venue "XOME" "XOME" "SE" Operating Expired;
  Venue "BURG" "XOSL" "NO" Segment Expired;
  Venue "MERD" "XOSL" "NO" Segment Active;
  Venue "XOAM" "XOSL" "NO" Segment Active;
  Venue "BURM" "XOSL" "NO" Segment Expired;
  Venue "XOSC" "XOSL" "NO" Segment Active;
  Venue "XOAD" "XOSL" "NO" Segment Active;
  Venue "XOSD" "XOSL" "NO" Segment Active;
  Venue "NIBR" "XOSL" "NO" Segment Active;
  Venue "XOSM" "XOSM" "JP" Operating Expired;
  Venue "XOST" "XOST" "JP" Operating Expired;
  Venue "XOTB" "XOTB" "AT" Operating Expired;
  Venue "XOTC" "XOTC" "US" Operating Expired;
  Venue "XPAE" "XPAE" "PS" Operating Active;
  Venue "XSPM" "XPAR" "FR" Segment Active;
  Venue "MTCH" "XPAR" "FR" Segment Active;
  Venue "XPAR" "XPAR" "FR" Operating Active;
  Venue "XMAT" "XPAR" "FR" Segment Active;
  Venue "XMON" "XPAR" "FR" Segment Active;
  Venue "XPHS" "XPHS" "PH" Operating Active;
  Venue "XPIC" "XPIC" "RU" Operating Active;
  Venue "XPOW" "XPOW" "FR" Operating Active;
  Venue "XPRA" "XPRA" "CZ" Operating Active;
  Venue "XPRM" "XPRA" "CZ" Segment Active;
  Venue "STRT" "XPRA" "CZ" Segment Expired;
  Venue "SPAD" "XPRA" "CZ" Segment Expired;
  Venue "XPRI" "XPRI" "UA" Operating Active;
  Venue "XPSE" "XPSE" "US" Operating Expired;
  Venue "XPST" "XPST" "HK" Operating Active;
  Venue "XPTY" "XPTY" "PA" Operating Active;
  Venue "XPXE" "XPXE" "CZ" Operating Active;
  Venue "XQUI" "XQUI" "EC" Operating Active;
  Venue "XRBM" "XRBM" "MY" Operating Active;
  Venue "XRIO" "XRIO" "BR" Operating Expired;
  Venue "XRIS" "XRIS" "LV" Operating Active;
  Venue "FNLV" "XRIS" "LV" Segment Active;
  Venue "XRMZ" "XRMZ" "CZ" Operating Active;
  Venue "XROS" "XROS" "AR" Operating Active;
  Venue "XROX" "XROS" "AR" Segment Active;
  Venue "XTUC" "XROS" "AR" Segment Active;
  Venue "XRPM" "XRPM" "RO" Operating Active;
  Venue "XRUS" "XRUS" "RU" Operating Active;
  Venue "XSAM" "XSAM" "RU" Operating Active;
  Venue "XSAP" "XSAP" "JP" Operating Active;
  Venue "XSAU" "XSAU" "SA" Operating Active;
  Venue "XSC2" "XSCO" "DE" Segment Active;
  Venue "XSC3" "XSCO" "DE" Segment Active;
  Venue "XSC1" "XSCO" "DE" Segment Active;
  Venue "XSCO" "XSCO" "DE" Operating Active;
  Venue "XSEF" "XSEF" "US" Operating Expired;
  Venue "XSCL" "XSES" "SG" Segment Expired;
  Venue "XSES" "XSES" "SG" Operating Active;
  Venue "XSIM" "XSES" "SG" Segment Active;
  Venue "XSCE" "XSES" "SG" Segment Active;
  Venue "XINE" "XSGE" "CN" Segment Active;
  Venue "XSGE" "XSGE" "CN" Operating Active;
  Venue "XSGO" "XSGO" "CL" Operating Active;
  Venue "XSEC" "XSHE" "CN" Segment Active;
  Venue "XSHE" "XSHE" "CN" Operating Active;
  Venue "XSSC" "XSHG" "CN" Segment Active;
  Venue "XSHG" "XSHG" "CN" Operating Active;
  Venue "XSIB" "XSIB" "RU" Operating Active;
  Venue "XSME" "XSME" "CN" Operating Expired;
  Venue "XSOM" "XSOM" "BR" Operating Expired;
  Venue "XSOP" "XSOP" "SI" Operating Active;
  Venue "XSPS" "XSPS" "FJ" Operating Active;
  Venue "XSRM" "XSRM" "ES" Operating Expired;
  Venue "XSSE" "XSSE" "BA" Operating Active;
  Venue "XSTC" "XSTC" "VN" Operating Active;
  Venue "XSTE" "XSTE" "UZ" Operating Active;
  Venue "DNSE" "XSTO" "SE" Segment Active;
  Venue "FNSE" "XSTO" "SE" Segment Active;
  Venue "CSTO" "XSTO" "SE" Segment Active;
  Venue "MNSE" "XSTO" "SE" Segment Active;
  Venue "MSTO" "XSTO" "SE" Segment Active;
  Venue "XSTO" "XSTO" "SE" Operating Active;
  Venue "DSTO" "XSTO" "SE" Segment Active;
  Venue "STUB" "XSTU" "DE" Segment Active;
  Venue "STUA" "XSTU" "DE" Segment Active;
  Venue "XSTU" "XSTU" "DE" Operating Active;
  Venue "EUWX" "XSTU" "DE" Segment Active;
  Venue "XSVA" "XSVA" "SV" Operating Active;
  Venue "XSWA" "XSWA" "SZ" Operating Active;
  Venue "XSWB" "XSWB" "GB" Operating Active;
  Venue "XSWO" "XSWO" "CH" Operating Expired;
  Venue "XTAD" "XTAD" "TW" Operating Expired;
  Venue "XTAE" "XTAE" "IL" Operating Active;
  Venue "XTAF" "XTAF" "TW" Operating Active;
  Venue "XTAI" "XTAI" "TW" Operating Active;
  Venue "XTAL" "XTAL" "EE" Operating Active;
  Venue "FNEE" "XTAL" "EE" Segment Active;
  Venue "XTEH" "XTEH" "IR" Operating Active;
  Venue "XTFE" "XTFE" "CA" Operating Expired;
  Venue "XTFF" "XTFF" "JP" Operating Active;
  Venue "XTFN" "XTFN" "GB" Operating Expired;
  Venue "XTIR" "XTIR" "AL" Operating Active;
  Venue "XTKA" "XTKA" "JP" Operating Expired;
  Venue "XTKO" "XTKO" "JP" Operating Expired;
  Venue "XTKT" "XTKT" "JP" Operating Active;
  Venue "XTOE" "XTOE" "CA" Operating Expired;
  Venue "XTRA" "XTRA" "DK" Operating Expired;
  Venue "XTRN" "XTRN" "TT" Operating Active;
  Venue "XTRZ" "XTRZ" "HR" Operating Active;
  Venue "XTSE" "XTSE" "CA" Operating Active;
  Venue "XTSX" "XTSX" "CA" Operating Active;
  Venue "XTNX" "XTSX" "CA" Segment Active;
  Venue "XTUN" "XTUN" "TN" Operating Active;
  Venue "TPCD" "XTUP" "GB" Segment Expired;
  Venue "TBLA" "XTUP" "GB" Segment Expired;
  Venue "TPFD" "XTUP" "GB" Segment Expired;
  Venue "TPSP" "XTUP" "GB" Segment Expired;
  Venue "XTUP" "XTUP" "GB" Operating Expired;
  Venue "TPSD" "XTUP" "GB" Segment Expired;
  Venue "TPRE" "XTUP" "GB" Segment Expired;
  Venue "TPEQ" "XTUP" "GB" Segment Expired;
  Venue "XTPE" "XTUP" "GB" Segment Expired;
  Venue "TBEN" "XTUP" "GB" Segment Expired;
  Venue "XTUR" "XTUR" "TR" Operating Expired;
  Venue "XUAX" "XUAX" "UA" Operating Active;
  Venue "XUGA" "XUGA" "UG" Operating Active;
  Venue "XUKR" "XUKR" "UA" Operating Active;
  Venue "XULA" "XULA" "MN" Operating Active;
  Venue "XUNI" "XUNI" "UZ" Operating Active;
  Venue "XUSE" "XUSE" "IN" Operating Active;
  Venue "XVAR" "XVAR" "HR" Operating Expired;
  Venue "XVLA" "XVLA" "RU" Operating Expired;
  Venue "XVPA" "XVPA" "PY" Operating Active;
  Venue "XVSE" "XVSE" "CA" Operating Expired;
  Venue "RPWC" "XWAR" "PL" Segment Active;
  Venue "TBSP" "XWAR" "PL" Segment Active;
  Venue "TBSA" "XWAR" "PL" Segment Active;
  Venue "BOSP" "XWAR" "PL" Segment Active;
  Venue "WETP" "XWAR" "PL" Segment Active;
  Venue "XWAR" "XWAR" "PL" Operating Active;
  Venue "PLPO" "XWAR" "PL" Segment Active;
  Venue "PLPS" "XWAR" "PL" Segment Active;
  Venue "WBLC" "XWAR" "PL" Segment Expired;
  Venue "WBCL" "XWAR" "PL" Segment Active;
  Venue "WBON" "XWAR" "PL" Segment Active;
  Venue "WMTF" "XWAR" "PL" Segment Active;
  Venue "WDER" "XWAR" "PL" Segment Active;
  Venue "WCDE" "XWAR" "PL" Segment Expired;
  Venue "POEE" "XWAR" "PL" Segment Expired;
  Venue "WGAS" "XWAR" "PL" Segment Expired;
  Venue "PLPX" "XWAR" "PL" Segment Expired;
  Venue "EXAA" "XWBO" "AT" Segment Active;
  Venue "XWBO" "XWBO" "AT" Operating Active;
  Venue "WBAH" "XWBO" "AT" Segment Active;
  Venue "WBDM" "XWBO" "AT" Segment Active;
  Venue "XVIE" "XWBO" "AT" Segment Active;
  Venue "XXSC" "XXSC" "DE" Operating Active;
  Venue "XXXX" "XXXX" "ZZ" Operating Active;
  Venue "XYIE" "XYIE" "AU" Operating Active;
  Venue "XYKT" "XYKT" "JP" Operating Expired;
  Venue "XZAG" "XZAG" "HR" Operating Active;
  Venue "XZCE" "XZCE" "CN" Operating Active;
  Venue "XZIM" "XZIM" "ZW" Operating Active;
  Venue "ZKBX" "ZKBX" "CH" Operating Active;
  Venue "KMUX" "ZKBX" "CH" Segment Active;
  Venue "UKCA" "UKCA" "GB" Operating Active;
  Venue "ASEF" "ASEF" "US" Operating Active;
  Venue "MEMM" "MEMX" "US" Segment Active;
  Venue "XEBS" "XEBS" "GB" Operating Active;
  Venue "NSPO" "NSPO" "SE" Operating Active;
  Venue "OTCI" "OTCI" "US" Operating Active;
  Venue "GFOX" "GFOX" "GB" Operating Active;
  Venue "FNFT" "BGCF" "US" Segment Active;
  Venue "HGSP" "HEMO" "GR" Segment Active;
  Venue "TERM" "TERM" "SG" Operating Active;
  Venue "PATF" "PATF" "CZ" Operating Active;
  Venue "BBVX" "BBVX" "GB" Operating Updated;
  Venue "ODXE" "ODXE" "JP" Operating Active;
  Venue "HPSX" "HPSX" "GB" Operating Active;
  Venue "DBDX" "DBDX" "DE" Operating Active;
  Venue "EMCE" "XBRM" "RO" Segment Active;
  Venue "HPSO" "HPSX" "GB" Segment Active;
  Venue "ARTX" "ARTX" "LI" Operating Active;
  Venue "SPTX" "SPTX" "US" Operating Active;
  Venue "TSIR" "TPSO" "GB" Segment Active;
  Venue "STXS" "STXS" "NL" Operating Active;
  Venue "EUFN" "EUFN" "BG" Operating Active;
  Venue "TSFX" "TPSO" "GB" Segment Expired;
  Venue "GFAU" "GFAU" "AU" Operating Active;
  Venue "CSE2" "XCNQ" "CA" Segment Active;
  Venue "XIGG" "XIGG" "DE" Operating Active;
  Venue "SMBC" "SMBC" "JP" Operating Active;
  Venue "FNXB" "BGCF" "US" Segment Active;
  Venue "BGCA" "BGCA" "AU" Operating Active;
  Venue "AQXD" "AQXE" "GB" Segment Active;
  Venue "XFTX" "XFTX" "AG" Operating Active;
  Venue "NABP" "NABP" "FR" Operating Active;
  Venue "USOB" "XSTO" "SE" Segment Active;
  Venue "BTUN" "XTUN" "TN" Segment Active;
  Venue "ECNL" "RTSL" "GB" Segment Active;
  Venue "RITS" "RITS" "IN" Operating Active;
  Venue "FXSM" "RTSP" "SG" Segment Active;
  Venue "FXNM" "THRE" "US" Segment Active;
  Venue "MSWP" "MTSO" "IT" Segment Active;
  Venue "CAST" "CAST" "US" Operating Active;
  Venue "XABX" "XABX" "SG" Operating Active;
  Venue "CILH" "CILH" "JP" Operating Active;
  Venue "USWP" "XMTS" "GB" Segment Active;
  Venue "CBAE" "CBAE" "NL" Operating Active;
  Venue "TRDC" "TRDC" "SG" Operating Active;
  Venue "USEF" "USEF" "US" Operating Expired;
  Venue "NSSA" "NSSA" "PL" Operating Active;
  Venue "CMCM" "CMCM" "GB" Operating Active;
  Venue "EBLX" "XIGG" "DE" Segment Active;
  Venue "ERFQ" "XIGG" "DE" Segment Active;
  Venue "ENTW" "XIGG" "DE" Segment Active;
  Venue "FUSD" "LEDG" "US" Segment Active;
  Venue "XETE" "XETR" "DE" Segment Active;
  Venue "XETX" "XETR" "DE" Segment Active;
  Venue "SFOX" "SFOX" "US" Operating Active;
  Venue "BJSE" "BJSE" "CN" Operating Active;
  Venue "NEEQ" "NEEQ" "CN" Operating Active;
  Venue "VFEX" "VFEX" "ZW" Operating Active;
  Venue "MSDM" "MSDM" "PL" Operating Active;
  Venue "LNEQ" "TPIC" "FR" Segment Active;
  Venue "LNFI" "TPIC" "FR" Segment Active;
  Venue "IBSI" "IBSI" "IE" Operating Active;
  Venue "RAJA" "RAJA" "US" Operating Active;
  Venue "LPSF" "LPSF" "US" Operating Active;
  Venue "GBSI" "GBSI" "IE" Operating Active;
  Venue "TPID" "TPID" "GB" Operating Active;
  Venue "INGU" "INGU" "GB" Operating Active;
  Venue "SISU" "SISU" "GB" Operating Active;
  Venue "SEWB" "XSTO" "SE" Segment Active;
  Venue "DKWB" "XSTO" "SE" Segment Active;
  Venue "NOWB" "XSTO" "SE" Segment Active;
  Venue "SEOB" "XSTO" "SE" Segment Active;
  Venue "DKOB" "XSTO" "SE" Segment Active;
  Venue "EUOB" "XSTO" "SE" Segment Active;
  Venue "GBOB" "XSTO" "SE" Segment Active;
  Venue "NOOB" "XSTO" "SE" Segment Active;
  Venue "OTXT" "OTXT" "GB" Operating Active;
  Venue "MXOP" "MEMX" "US" Segment Active;
  Venue "BOCF" "BOCF" "DE" Operating Active;
  Venue "FPWB" "FPWB" "AT" Operating Active;
  Venue "SPAX" "SPAX" "US" Operating Active;
  Venue "LEBV" "LEBV" "NL" Operating Active;
  Venue "LESI" "LESI" "US" Operating Active;
  Venue "BGEM" "XMIL" "IT" Segment Active;
  Venue "JLEQ" "JLQD" "US" Segment Active;
  Venue "GMGE" "GMGE" "NL" Operating Active;
  Venue "IEXC" "IEXG" "US" Segment Active;
  Venue "INTL" "INTL" "US" Operating Active;
  Venue "BRMF" "XBRM" "RO" Segment Active;
  Venue "CXAB" "CHIA" "AU" Segment Active;
  Venue "CXAI" "CHIA" "AU" Segment Active;
  Venue "TMUK" "TMUK" "GB" Operating Active;
  Venue "XCBD" "XCBO" "US" Segment Active;
  Venue "U360" "U360" "US" Operating Active;
  Venue "BDPL" "BDPL" "LU" Operating Active;
  Venue "VMEX" "VMEX" "AE" Operating Active;
  Venue "IEOS" "IBKR" "US" Segment Active;
  Venue "INFT" "INFT" "NO" Operating Active;
  Venue "EDXM" "EDXM" "US" Operating Active;
  Venue "IBKR" "IBKR" "US" Operating Active;
  Venue "ALGO" "ALGO" "GB" Operating Active;
  Venue "XAND" "XAND" "SG" Operating Active;
  Venue "FNDS" "INFT" "NO" Segment Active;
  Venue "IFFX" "INFT" "NO" Segment Active;
  Venue "QUNT" "INFT" "NO" Segment Active;
  Venue "GSLO" "GSLO" "GB" Operating Active;
  Venue "RTXF" "RTXF" "US" Operating Active;
  Venue "ARDA" "ARCH" "GB" Segment Active;
  Venue "VUBA" "VUBA" "SK" Operating Active;
  Venue "G360" "G360" "GB" Operating Active;
  Venue "ACXL" "ACXL" "AE" Operating Active;
  Venue "ACXC" "ACXC" "AE" Operating Active;
  Venue "ATAD" "ATAD" "CZ" Operating Active;
  Venue "GSXN" "GSXN" "HK" Operating Active;
  Venue "RULE" "RULE" "CH" Operating Active;
  Venue "MSXB" "XMUS" "OM" Segment Active;
  Venue "XCVD" "XCVD" "DO" Operating Active;
  Venue "MSLC" "MSCO" "US" Segment Active;
  Venue "XANM" "XANM" "SG" Operating Active;
  Venue "CFIM" "CFIM" "US" Operating Active;
  Venue "MSXO" "XMUS" "OM" Segment Active;
  Venue "XATX" "XATS" "CA" Segment Active;
  Venue "ADRK" "XATS" "CA" Segment Active;
  Venue "RFIM" "RFIM" "AE" Operating Active;
  Venue "BNDS" "BNDS" "US" Operating Active;
  Venue "SPHR" "MIHI" "US" Segment Active;
  Venue "AFTS" "AFTS" "GB" Operating Active;
  Venue "TMEU" "TMEU" "IE" Operating Active;
  Venue "NXFO" "NMRJ" "JP" Segment Active;
  Venue "TPDA" "TPID" "GB" Segment Active;
  Venue "TICT" "TICT" "JP" Operating Active;
  Venue "XBRY" "XBRY" "PL" Operating Active;
  Venue "XMME" "XCYS" "CY" Segment Active;
  Venue "GSXM" "GSAL" "HK" Segment Active;
  Venue "NTRL" "INCR" "US" Segment Active;
  Venue "SCLE" "BMEX" "ES" Segment Active;
  Venue "NXBX" "NMRJ" "JP" Segment Active;
  Venue "ACCX" "ACCX" "GB" Operating Active;
  Venue "POTL" "POTL" "AU" Operating Active;
  Venue "NPMS" "NPMS" "US" Operating Active;
  Venue "LBUL" "XBUL" "BG" Segment Active;
  Venue "RRSI" "RRSI" "RO" Operating Active;
  Venue "OCTL" "OCTL" "US" Operating Active;
  Venue "BXDA" "BXDA" "CH" Operating Active;
  Venue "BGCJ" "BGCJ" "JP" Operating Active;
  Venue "LMAS" "LMAS" "SG" Operating Active;
  Venue "GFSG" "GFSG" "SG" Operating Active;
  Venue "BGSG" "BGSG" "SG" Operating Active;
  Venue "EESX" "EESX" "ZA" Operating Active;
  Venue "BNPH" "BNPH" "US" Operating Active;
  Venue "SPDK" "XSAT" "SE" Segment Active;
  Venue "SPNO" "XSAT" "SE" Segment Active;
  Venue "SPFI" "XSAT" "SE" Segment Active;
  Venue "SPEU" "XSAT" "SE" Segment Active;
  Venue "PHSI" "PEEL" "GB" Segment Active;
  Venue "ETOR" "ETOR" "CY" Operating Active].
