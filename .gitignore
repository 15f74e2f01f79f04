*.vo
*.vos
*.vok
*.glob
.*.aux
*.cache
Makefile
Makefile.conf
.Makefile.d
.lia.cache
.nia.cache
