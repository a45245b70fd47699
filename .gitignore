*.vo
*.vos
*.vok
*.glob
*.aux
.lia.cache
.nia.cache
Makefile
Makefile.conf
.Makefile.d
.nra.cache
.lia.cache
.nia.cache
.csdp.cache
